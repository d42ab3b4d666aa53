(* C189: StreamBufFunction. *)
From Coq Require Import List ZArith Bool Lia.
From Verif Require Import Common StreamFn.
Import ListNotations.
Local Open Scope Z_scope.

Lemma room_min : forall a b : nat, (if (a <? b)%nat then a else b) = Nat.min a b.
Proof. intros a b. destruct (Nat.ltb_spec a b); lia. Qed.

(** A derived class that passes on what it is given, as a class that compresses or encrypts would do with its own encoding: [sent w] is what it has
    passed on so far. *)
Section Write.
Context {W : Type} (onwrite : W -> list Z -> W * nat) (sent : W -> list Z).
Context (Hsent : forall w p, sent (fst (onwrite w p)) = sent w ++ p).

(** What has been written to the buffer. *)
Definition written (s : put W) : list Z := sent (world s) ++ pending s.

Lemma call_written : forall s, written (call_onwrite onwrite s) = written s.
Proof.
  intros s. unfold written, call_onwrite. pose proof (Hsent (world s) (pending s)) as H. destruct (onwrite (world s) (pending s)) as [w n].
  cbn [fst world pending] in *. rewrite H, app_nil_r. reflexivity.
Qed.

(** Single chars: each one is added, or eof is reported and nothing is lost. *)
Lemma put_char : forall s ch, let '(s', r) := overflow onwrite s ch in
  (r = Some ch /\ written s' = written s ++ [ch]) \/ (r = None /\ written s' = written s /\ room s' = 0%nat).
Proof.
  intros s ch. unfold overflow. set (t := if Nat.eqb (room s) 0 then _ else _).
  assert (E : written t = written s) by (unfold t; destruct (Nat.eqb _ _); [apply call_written|reflexivity]).
  destruct (Nat.ltb_spec 0 (room t)).
  - left. split; [reflexivity|]. unfold written in *. cbn [world pending]. rewrite app_assoc, E. reflexivity.
  - right. split; [reflexivity|]. split; [exact E|]. lia.
Qed.

(** The chars of a text all go in, in their order, if the derived class always makes room. *)
Lemma put_text : (forall w p, 0 < snd (onwrite w p))%nat -> forall fuel s text, (length text < fuel)%nat ->
  exists s' r, xsputn onwrite fuel s text = Ok (s', r) /\ written s' = written s ++ text /\
    (text <> [] -> (length text <= room s)%nat -> r = length text) /\
    (text <> [] -> (0 < room s < length text)%nat -> (r <= length text - room s)%nat) /\
    (text <> [] -> (room s = 0)%nat -> (r <= length text)%nat) /\ (text <> [] -> (0 < r)%nat).
Proof.
  intros Hroom. induction fuel as [|fuel IH]; intros s text F; [lia|]. cbn [xsputn]. cbv zeta. rewrite room_min.
  set (t := if Nat.eqb (room s) 0 then _ else _).
  assert (E : written t = written s) by (unfold t; destruct (Nat.eqb _ _); [apply call_written|reflexivity]).
  assert (R : (0 < room t)%nat).
  { unfold t. destruct (Nat.eqb_spec (room s) 0); [|lia]. unfold call_onwrite. specialize (Hroom (world s) (pending s)).
    destruct (onwrite (world s) (pending s)). exact Hroom. }
  assert (T : (0 < room s)%nat -> t = s) by (intros P; unfold t; destruct (Nat.eqb_spec (room s) 0); [lia|reflexivity]).
  set (r := Nat.min (length text) (room t)). rewrite skipn_length.
  destruct (Nat.eqb_spec (length text - r) 0) as [Zr|Zr]; cbn [negb].
  - exists (Put (world t) (pending t ++ firstn r text) (room t - r)), r. split; [reflexivity|].
    assert (RL : r = length text) by lia.
    split; [unfold written in *; cbn [world pending]; rewrite app_assoc, E, RL, firstn_all; reflexivity|].
    split; [auto|]. split; [|split; [lia|]].
    + intros _ Q. unfold r in RL. rewrite (T ltac:(lia)) in RL. lia.
    + intros NE. destruct text; [congruence|cbn [length] in *; lia].
  - assert (RR : r = room t) by lia.
    destruct (IH (Put (world t) (pending t ++ firstn r text) (room t - r)) (skipn r text)) as (s' & k & A & B & C & D & G & H).
    { rewrite skipn_length. lia. }
    assert (NE : skipn r text <> []) by (intros Q; apply (f_equal (@length Z)) in Q; rewrite skipn_length in Q; cbn in Q; lia).
    exists s', k. split; [exact A|]. split.
    + rewrite B. unfold written in *. cbn [world pending]. rewrite <- E, <- !app_assoc. do 2 f_equal. apply firstn_skipn.
    + cbn [room] in *. rewrite skipn_length in *. specialize (G NE ltac:(lia)). specialize (H NE).
      split; [intros _ Q|split; [intros _ Q|split; [intros _ Q|auto]]].
      * assert (0 < room s)%nat as P by (destruct (room s); lia). rewrite (T P) in RR. unfold r in *. rewrite (T P) in *. lia.
      * rewrite (T ltac:(lia)) in RR. lia.
      * lia.
Qed.
End Write.

(** Whatever the derived class passes on, written chars are neither lost nor put out of order. *)
Theorem C189_write_partial : forall (W : Type) (onwrite : W -> list Z -> W * nat) (sent : W -> list Z),
  (forall w p, sent (fst (onwrite w p)) = sent w ++ p) ->
  (forall s ch, let '(s', r) := overflow onwrite s ch in
     (r = Some ch /\ written sent s' = written sent s ++ [ch]) \/ (r = None /\ written sent s' = written sent s /\ room s' = 0%nat)) /\
  ((forall w p, 0 < snd (onwrite w p))%nat ->
   forall fuel s text, (length text < fuel)%nat -> exists s' r, xsputn onwrite fuel s text = Ok (s', r) /\ written sent s' = written sent s ++ text /\
     ((length text <= room s)%nat -> text <> [] -> r = length text)).
Proof.
  intros W onwrite sent H. split; [intros; apply put_char; exact H|]. intros R fuel s text F.
  destruct (put_text onwrite sent H R fuel s text F) as (s' & r & A & B & C & _). eauto 8.
Qed.
Print Assumptions C189_write_partial.

(** The number returned is not that of the chars written: it is less for every text that does not fit in the room there is.  ostream::write
    then reports a failure.  And if the derived class makes no room, a text is not refused: the calls never end. *)
Theorem C189_write_refuted : forall (W : Type) (onwrite : W -> list Z -> W * nat) (sent : W -> list Z),
  (forall w p, sent (fst (onwrite w p)) = sent w ++ p) ->
  ((forall w p, 0 < snd (onwrite w p))%nat -> forall fuel s text, (0 < room s < length text)%nat -> (length text < fuel)%nat ->
     exists s' r, xsputn onwrite fuel s text = Ok (s', r) /\ written sent s' = written sent s ++ text /\ (r < length text)%nat) /\
  ((forall w p, snd (onwrite w p) = 0%nat) -> forall fuel s text, room s = 0%nat -> text <> [] -> xsputn onwrite fuel s text = OutOfFuel).
Proof.
  intros W onwrite sent H. split.
  - intros R fuel s text L F. destruct (put_text onwrite sent H R fuel s text F) as (s' & r & A & B & _ & C & _).
    exists s', r. split; [exact A|]. split; [exact B|]. assert (text <> []) as NE by (intros ->; cbn in L; lia). specialize (C NE L). lia.
  - intros R. induction fuel as [|fuel IH]; intros s text Z NE; [reflexivity|]. cbn [xsputn]. rewrite Z. cbn [Nat.eqb]. cbv zeta. rewrite room_min.
    assert (Q : room (call_onwrite onwrite s) = 0%nat).
    { unfold call_onwrite. specialize (R (world s) (pending s)). destruct (onwrite (world s) (pending s)). exact R. }
    rewrite Q, Nat.min_0_r. cbn [skipn firstn Nat.sub]. destruct (Nat.eqb_spec (length text) 0) as [E|_]; [destruct text; [congruence|discriminate]|].
    cbn [negb]. apply IH; [reflexivity|exact NE].
Qed.
Print Assumptions C189_write_refuted.

(** Reading.  [ahead w l]: the derived class, from [w], delivers the chars [l] and then nothing for ever. *)
Section Read.
Context {W : Type} (onread : W -> W * list Z).
Inductive ahead : W -> list Z -> Prop :=
| ahead_end : forall w, (forall n, snd (onread (Nat.iter n (fun v => fst (onread v)) w)) = []) -> ahead w []
| ahead_more : forall w w' c l, onread w = (w', c) -> c <> [] -> ahead w' l -> ahead w (c ++ l).
Definition left (g : get W) (l : list Z) : Prop := exists r, ahead (gworld g) r /\ l = area g ++ r.

Lemma iter_r : forall n (f : W -> W) x, Nat.iter n f (f x) = Nat.iter (S n) f x.
Proof. induction n as [|n IH]; intros f x; [reflexivity|]. change (f (Nat.iter n f (f x)) = f (Nat.iter (S n) f x)). rewrite IH. reflexivity. Qed.
Lemma refill : forall g l, left g l ->
  let g' := match area g with [] => call_onread onread g | _ => g end in left g' l /\ (area g' = [] <-> l = []).
Proof.
  intros [w a] l [r [A ->]]. cbn [gworld area] in *. destruct a as [|c a].
  - cbn [app]. unfold call_onread. cbn [gworld]. inversion A as [w0 E|w0 w' c l0 E N B]; subst.
    + pose proof (E 0%nat) as E0. cbn in E0. destruct (onread w) as [w' c] eqn:O. cbn [snd] in E0. subst c. cbn [area]. split; [|tauto].
      exists []. cbn [gworld area app]. split; [|reflexivity]. constructor. intros n. specialize (E (S n)).
      rewrite <- iter_r in E. rewrite O in E. exact E.
    + rewrite E. cbn [area]. split; [exists l0; auto|]. split; [congruence|]. intros Q. apply app_eq_nil in Q. tauto.
  - cbn [area]. split; [exists r; auto|]. split; discriminate.
Qed.

(** Chars are delivered in order, none is lost or read twice; the end is reported exactly when nothing is left; a block read is a
    beginning of what is left, of n chars or less, and empty only at the end. *)
Theorem C189_read_partial : forall g l, left g l ->
  (let '(g', c) := uflow onread g in c = hd_error l /\ left g' (tl l)) /\
  (let '(g', c) := underflow onread g in c = hd_error l /\ left g' l) /\
  (forall n, let '(g', b) := xsgetn onread g n in (length b <= n)%nat /\ exists l', l = b ++ l' /\ left g' l' /\ (b = [] <-> n = 0%nat \/ l = [])).
Proof.
  intros g l H. destruct (refill g l H) as [L Z]. unfold uflow, underflow, xsgetn.
  set (h := match area g with [] => _ | _ => _ end) in *. clearbody h. clear g H. destruct L as [r [A ->]]. destruct h as [w a]. cbn [gworld area] in *.
  assert (N : a = [] -> r = []) by (intros ->; apply Z; reflexivity).
  split; [|split].
  - destruct a as [|c a]; cbn [area].
    + rewrite (N eq_refl) in *. split; [reflexivity|]. exists []. auto.
    + split; [reflexivity|]. exists r. auto.
  - destruct a as [|c a]; cbn [area].
    + rewrite (N eq_refl) in *. split; [reflexivity|]. exists []. auto.
    + split; [reflexivity|]. exists r. auto.
  - intros n. rewrite room_min. set (k := Nat.min n (length a)). rewrite firstn_length. split; [lia|].
    exists (skipn k a ++ r). split; [rewrite app_assoc, firstn_skipn; reflexivity|]. split; [exists r; auto|].
    rewrite <- Z. rewrite <- !length_zero_iff_nil, firstn_length. unfold k. lia.
Qed.

(** A block read gives less than was asked for whenever the area does not hold it all, though more may follow: istream::read takes that for the end. *)
Theorem C189_read_refuted : forall g c l n, area g = c -> c <> [] -> ahead (gworld g) l -> (length c < n <= length (c ++ l))%nat ->
  left g (c ++ l) /\ let '(g', b) := xsgetn onread g n in b = c /\ (length b < n)%nat.
Proof.
  intros [w a] c l n <- NE A L. cbn [area gworld] in *. split; [exists l; auto|]. unfold xsgetn. cbn [area gworld]. rewrite room_min.
  destruct a as [|x a]; [congruence|]. cbn [area]. rewrite Nat.min_r by lia. rewrite firstn_all. split; [reflexivity|lia].
Qed.
End Read.
Print Assumptions C189_read_partial.
Print Assumptions C189_read_refuted.

(** A sink with an area of three chars, and a source that delivers two chars at a time. *)
Definition sink (w p : list Z) : list Z * nat := (w ++ p, 3%nat).
Definition source (w : list Z) : list Z * list Z := (skipn 2 w, firstn 2 w).
Example C189_example :
  xsputn sink 9 (put_init []) [1; 2; 3; 4; 5] = Ok (Put [1; 2; 3] [4; 5] 1, 2%nat) /\
  xsgetn source (get_init [7; 8; 9]) 3 = (Get [9] [], [7; 8]) /\ left source (get_init [7; 8; 9]) [7; 8; 9] /\
  (forall w p, fst (sink w p) = w ++ p /\ (0 < snd (sink w p))%nat).
Proof.
  split; [reflexivity|]. split; [reflexivity|]. split.
  - exists [7; 8; 9]. split; [|reflexivity]. change [7; 8; 9] with ([7; 8] ++ [9]) at 2. eapply ahead_more; [reflexivity|discriminate|].
    change [9] with ([9] ++ []) at 2. eapply ahead_more; [reflexivity|discriminate|]. constructor. intros n.
    assert (E : Nat.iter n (fun v => fst (source v)) [] = []) by (induction n as [|n IH]; [reflexivity|]; change (fst (source (Nat.iter n (fun v => fst (source v)) [])) = []); rewrite IH; reflexivity).
    match goal with |- snd (source ?t) = [] => change t with (Nat.iter n (fun v => fst (source v)) []) end. rewrite E. reflexivity.
  - intros w p. split; [reflexivity|]. cbn. lia.
Qed.
