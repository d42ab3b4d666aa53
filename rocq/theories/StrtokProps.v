(* Property C170: strtok_r and wcstok_r cut a string into its tokens. *)
From Coq Require Import ZArith List Bool Lia.
From Verif Require Import Common Strtok.
Import ListNotations.
Local Open Scope Z_scope.

(* ---------- what a user relies on ---------- *)

(* The tokens of a string: the longest runs of characters that are no delimiters.  [cur] is the run so far,
   backwards. *)
Fixpoint runs (delim : list Z) (cur s : list Z) : list (list Z) :=
  match s with
  | [] => match cur with [] => [] | _ => [rev cur] end
  | c :: t =>
      if in_dec Z.eq_dec c delim
      then match cur with [] => runs delim [] t | _ => rev cur :: runs delim [] t end
      else runs delim (c :: cur) t
  end.
Definition tokens (delim s : list Z) : list (list Z) := runs delim [] s.

(* The C string that starts at a position of memory. *)
Fixpoint cstr (l : list Z) : option (list Z) :=
  match l with [] => None | c :: t => if c =? 0 then Some [] else option_map (cons c) (cstr t) end.
Definition string_at (buf : list Z) (p : nat) : option (list Z) := cstr (skipn p buf).

(* for(t = strtok_r(s, delim, &l); t; t = strtok_r(0, delim, &l)): the pointers returned with the strings
   they point to at that time, and the memory afterwards. *)
Fixpoint cut (fuel : nat) (buf : list Z) (s : option nat) (delim : list Z) (lasts : option nat)
  : res (list (nat * option (list Z)) * list Z) :=
  match fuel with
  | O => OutOfFuel
  | S f =>
      do r <- strtok_r buf s delim lasts;
      match r with
      | (buf', _, None) => Ok ([], buf')
      | (buf', l', Some p) =>
          do rest <- cut f buf' None delim l';
          Ok ((p, string_at buf' p) :: fst rest, snd rest)
      end
  end.

(* ---------- proofs ---------- *)

Lemma span_spec c : forall delim, span_delim c delim = if in_dec Z.eq_dec c delim then true else false.
Proof.
  induction delim as [|d l IH]; [reflexivity|]. cbn [span_delim]. destruct (Z.eqb_spec c d).
  - destruct (in_dec Z.eq_dec c (d :: l)) as [|N]; auto. destruct N. now left.
  - rewrite IH. destruct (in_dec Z.eq_dec c l), (in_dec Z.eq_dec c (d :: l)) as [I|N]; auto.
    + destruct N. now right.
    + destruct I; congruence.
Qed.
Lemma scan_spec c : forall delim, scan_delim c delim = orb (if in_dec Z.eq_dec c delim then true else false) (c =? 0).
Proof.
  induction delim as [|d l IH]; [reflexivity|]. cbn [scan_delim]. destruct (Z.eqb_spec d c).
  - destruct (in_dec Z.eq_dec c (d :: l)) as [|N]; auto. destruct N. now left.
  - rewrite IH. destruct (in_dec Z.eq_dec c l), (in_dec Z.eq_dec c (d :: l)) as [I|N]; auto.
    + destruct N. now right.
    + destruct I; [congruence|contradiction].
Qed.

Lemma get_mid (pre : list Z) c rest : get (pre ++ c :: rest) (length pre) = Ok c.
Proof. apply get_some. rewrite nth_error_app2, Nat.sub_diag by lia. reflexivity. Qed.

Lemma skip_ok delim : forall ds fuel pre c rest, Forall (fun x => In x delim) ds -> ~ In c delim -> (length ds < fuel)%nat ->
  tok_skip fuel (pre ++ ds ++ c :: rest) (length pre) delim = Ok (c, (length pre + length ds + 1)%nat).
Proof.
  induction ds as [|d ds IH]; intros [|fuel] pre c rest F N L; cbn [length] in L; try lia; cbn [tok_skip app].
  - rewrite get_mid. cbn [bind]. rewrite span_spec. destruct (in_dec Z.eq_dec c delim); [contradiction|]. f_equal. f_equal. cbn. lia.
  - rewrite get_mid. cbn [bind]. rewrite span_spec. inversion F; subst. destruct (in_dec Z.eq_dec d delim); [|contradiction].
    specialize (IH fuel (pre ++ [d]) c rest). rewrite <- app_assoc in IH. cbn [app] in IH. rewrite app_length in IH. cbn [length] in IH.
    rewrite Nat.add_1_r in IH. rewrite IH by (auto; lia). f_equal. f_equal. cbn [length]. lia.
Qed.

Lemma scan_ok delim : forall t fuel pre c rest, Forall (fun x => ~ In x delim /\ x <> 0) t -> (In c delim \/ c = 0) -> (length t < fuel)%nat ->
  tok_scan fuel (pre ++ t ++ c :: rest) (length pre) delim =
  if c =? 0 then Ok (pre ++ t ++ c :: rest, None) else Ok (pre ++ t ++ 0 :: rest, Some (length pre + length t + 1)%nat).
Proof.
  induction t as [|d t IH]; intros [|fuel] pre c rest F N L; cbn [length] in L; try lia; cbn [tok_scan app].
  - rewrite get_mid. cbn [bind]. rewrite scan_spec.
    destruct (Z.eqb_spec c 0) as [->|Z]; [rewrite orb_true_r; reflexivity|].
    destruct (in_dec Z.eq_dec c delim) as [|W]; [|destruct N; contradiction]. cbn [orb].
    rewrite set_ok by (rewrite app_length; cbn; lia). cbn [bind]. rewrite upd_app_r by lia. rewrite Nat.sub_diag. cbn [upd length].
    f_equal. f_equal. f_equal. lia.
  - rewrite get_mid. cbn [bind]. rewrite scan_spec. inversion F as [|? ? [N1 N2] F2]; subst.
    destruct (in_dec Z.eq_dec d delim); [contradiction|]. destruct (Z.eqb_spec d 0); [contradiction|]. cbn [orb].
    specialize (IH fuel (pre ++ [d]) c rest). rewrite <- !app_assoc in IH. cbn [app] in IH. rewrite app_length in IH. cbn [length] in IH.
    rewrite Nat.add_1_r in IH. rewrite IH by (auto; lia). destruct (c =? 0); auto. f_equal. f_equal. f_equal. cbn [length]. lia.
Qed.

Lemma runs_delims delim ds s : Forall (fun x => In x delim) ds -> runs delim [] (ds ++ s) = runs delim [] s.
Proof. induction 1 as [|d ds I F IH]; auto. cbn [app runs]. destruct (in_dec Z.eq_dec d delim); [auto|contradiction]. Qed.
Lemma runs_token delim : forall t cur s, Forall (fun x => ~ In x delim) t -> (cur <> [] \/ t <> []) ->
  (s = [] -> runs delim cur (t ++ s) = [rev cur ++ t]) /\
  (forall d s', s = d :: s' -> In d delim -> runs delim cur (t ++ s) = (rev cur ++ t) :: runs delim [] s').
Proof.
  induction t as [|c t IH]; intros cur s F N.
  - split.
    + intros ->. cbn [app runs]. destruct cur; [destruct N; congruence|]. now rewrite app_nil_r.
    + intros d s' -> I. cbn [app runs]. destruct (in_dec Z.eq_dec d delim); [|contradiction]. destruct cur; [destruct N; congruence|]. now rewrite app_nil_r.
  - inversion F; subst. cbn [app runs]. destruct (in_dec Z.eq_dec c delim); [contradiction|].
    destruct (IH (c :: cur) s) as [A B]; auto; [left; discriminate|]. cbn [rev] in A, B. rewrite <- app_assoc in A, B. split; intros; [now apply A|eapply B; eauto].
Qed.

(* leading delimiters, a token, the rest *)
Lemma decompose (delim : list Z) : forall s, exists ds t r, s = ds ++ t ++ r /\ Forall (fun x => In x delim) ds /\ Forall (fun x => ~ In x delim) t /\
  (t = [] -> r = []) /\ (r = [] \/ exists d r', r = d :: r' /\ In d delim).
Proof.
  assert (H : forall s : list Z, exists t r, s = t ++ r /\ Forall (fun x => ~ In x delim) t /\ (r = [] \/ exists d r', r = d :: r' /\ In d delim)).
  { induction s as [|c s (t & r & -> & F & R)]; [exists [], []; auto|].
    destruct (in_dec Z.eq_dec c delim); [exists [], (c :: t ++ r); split; [reflexivity|split; [constructor|right; eauto]]|exists (c :: t), r; auto]. }
  induction s as [|c s (ds & t & r & -> & F & G & X & R)]; [exists [], [], []; repeat split; auto|].
  destruct (in_dec Z.eq_dec c delim).
  - exists (c :: ds), t, r. repeat split; auto.
  - destruct (H (ds ++ t ++ r)) as (t' & r' & -> & F' & R'). exists [], (c :: t'), r'. repeat split; auto. discriminate.
Qed.

Lemma cstr_token : forall t rest, Forall (fun x => x <> 0) t -> cstr (t ++ 0 :: rest) = Some t.
Proof. induction 1 as [|c t N F IH]; [reflexivity|]. cbn [app cstr]. destruct (Z.eqb_spec c 0); [contradiction|]. now rewrite IH. Qed.
Lemma string_at_token pre t rest p : p = length pre -> Forall (fun x => x <> 0) t -> string_at (pre ++ t ++ 0 :: rest) p = Some t.
Proof. intros -> F. unfold string_at. rewrite skipn_app, skipn_all, Nat.sub_diag. now apply cstr_token. Qed.

Definition erased (delim : list Z) (c c' : Z) : Prop := c' = c \/ (In c delim /\ c' = 0).
Lemma erased_refl delim l : Forall2 (erased delim) l l.
Proof. induction l; constructor; auto. now left. Qed.

Lemma cut_call fuel buf p delim lasts : cut fuel buf (Some p) delim lasts = cut fuel buf None delim (Some p).
Proof. destruct fuel; reflexivity. Qed.

Lemma cut_ok delim (D : ~ In 0 delim) : forall n s, (length s <= n)%nat -> forall fuel pre post, Forall (fun x => x <> 0) s -> (length s + 1 < fuel)%nat ->
  exists ps s', cut fuel (pre ++ s ++ 0 :: post) None delim (Some (length pre)) = Ok (ps, pre ++ s' ++ 0 :: post) /\
    Forall2 (erased delim) s s' /\ map snd ps = map Some (tokens delim s) /\
    Forall (fun q => string_at (pre ++ s' ++ 0 :: post) (fst q) = snd q) ps.
Proof.
  induction n as [|n IH]; intros s Ls fuel pre post NZ Lf.
  - destruct s; [|cbn in Ls; lia]. destruct fuel; [lia|]. cbn [cut strtok_r]. exists [], []. cbn [app].
    rewrite (skip_ok delim [] _ pre 0 post) by (auto; cbn; lia). cbn [bind]. rewrite Z.eqb_refl. cbn [bind]. repeat split; auto.
  - destruct (decompose delim s) as (ds & t & r & -> & Fd & Ft & X & R).
    destruct fuel as [|fuel]; [lia|]. apply Forall_app in NZ as [NZd NZ]. apply Forall_app in NZ as [NZt NZr].
    destruct t as [|c t].
    + rewrite (X eq_refl) in *. cbn [app] in *. rewrite app_nil_r in *. cbn [cut strtok_r].
      rewrite (skip_ok delim ds _ pre 0 post) by (auto; rewrite !app_length; cbn; lia). cbn [bind]. rewrite Z.eqb_refl. cbn [bind].
      exists [], ds. repeat split; auto; [apply erased_refl|]. unfold tokens. rewrite <- (app_nil_r ds), runs_delims by auto. reflexivity.
    + inversion Ft as [|? ? Nc Ft']; subst. inversion NZt as [|? ? Zc NZt']; subst.
      cbn [cut strtok_r]. rewrite <- !app_assoc. cbn [app].
      assert (EQ : forall w, pre ++ ds ++ c :: t ++ w = (pre ++ ds ++ [c]) ++ t ++ w) by (intros; rewrite <- !app_assoc; reflexivity).
      rewrite (skip_ok delim ds _ pre c (t ++ r ++ 0 :: post)) by (auto; repeat (rewrite !app_length; cbn [length]); lia). cbn [bind].
      destruct (Z.eqb_spec c 0); [contradiction|].
      assert (LP : (length pre + length ds + 1)%nat = length (pre ++ ds ++ [c])) by (rewrite !app_length; cbn; lia).
      assert (TK : forall w, string_at (pre ++ ds ++ c :: t ++ 0 :: w) (length pre + length ds + 1 - 1) = Some (c :: t)).
      { intros w. replace (pre ++ ds ++ c :: t ++ 0 :: w) with ((pre ++ ds) ++ (c :: t) ++ 0 :: w) by (rewrite <- app_assoc; reflexivity). apply string_at_token; [rewrite app_length; lia|auto]. }
      assert (FF : Forall (fun x => ~ In x delim /\ x <> 0) t) by (rewrite Forall_forall in *; auto).
      destruct R as [->|(d & r' & -> & Id)].
      * cbn [app] in *. rewrite LP, !EQ. rewrite (scan_ok delim t) by (auto; rewrite !app_length; cbn; lia). rewrite Z.eqb_refl. cbn [bind fst snd].
        destruct fuel; [lia|]. cbn [cut strtok_r bind fst snd].
        exists [((length pre + length ds + 1 - 1)%nat, Some (c :: t))], (ds ++ c :: t). rewrite app_nil_r. rewrite <- !EQ, <- LP, TK.
        repeat split.
        { rewrite <- app_assoc. reflexivity. }
        { apply erased_refl. }
        { unfold tokens. rewrite runs_delims by auto. destruct (runs_token delim (c :: t) [] [] Ft) as [A _]; [right; discriminate|]. rewrite app_nil_r in A. now rewrite A. }
        { constructor; auto. cbn [fst snd]. rewrite <- app_assoc. cbn [app]. apply TK. }
      * cbn [app] in *. rewrite LP, !EQ. inversion NZr as [|? ? Zd NZr']; subst.
        rewrite (scan_ok delim t) by (auto; rewrite !app_length; cbn; lia). destruct (Z.eqb_spec d 0); [contradiction|]. cbn [bind fst snd].
        rewrite !app_length in Ls, Lf. cbn [length] in Ls, Lf. rewrite app_length in Ls, Lf. cbn [length] in Ls, Lf.
        destruct (IH r' ltac:(lia) fuel (pre ++ ds ++ c :: t ++ [0]) post) as (ps & s' & E & F2 & T & S); auto; [lia|].
        assert (EQ2 : forall w, (pre ++ ds ++ c :: t ++ [0]) ++ w = pre ++ ds ++ c :: t ++ 0 :: w).
        { intros w. repeat (rewrite <- !app_assoc; cbn [app]). reflexivity. }
        rewrite EQ2 in E, S. rewrite EQ2 in E.
        replace (length (pre ++ ds ++ [c]) + length t + 1)%nat with (length (pre ++ ds ++ c :: t ++ [0])) by (repeat (rewrite !app_length; cbn [length]); lia).
        rewrite <- !EQ, <- LP. rewrite E. cbn [bind fst snd].
        exists (((length pre + length ds + 1 - 1)%nat, Some (c :: t)) :: ps), (ds ++ c :: t ++ 0 :: s').
        rewrite TK. repeat split.
        { repeat (rewrite <- !app_assoc; cbn [app]). reflexivity. }
        { apply Forall2_app; [apply erased_refl|]. constructor; [now left|]. apply Forall2_app; [apply erased_refl|]. constructor; [right; auto|exact F2]. }
        { cbn [map snd]. rewrite T. unfold tokens. rewrite runs_delims by auto.
          destruct (runs_token delim (c :: t) [] (d :: r') Ft) as [_ B]; [right; discriminate|]. cbn [app] in B. rewrite (B d r' eq_refl Id). reflexivity. }
        { repeat (rewrite <- !app_assoc; cbn [app]). constructor; [cbn [fst snd]; apply TK|exact S]. }
Qed.

(* Whatever lies around the string: the calls return the tokens in order, each readable at once and still
   readable at the end, they never touch memory outside the string, and inside it they only overwrite
   delimiters with the terminator. *)
Theorem C170_strtok : forall (pre s post delim : list Z) (lasts : option nat),
  ~ In 0 delim -> ~ In 0 s ->
  exists ps s',
    cut (length s + 2) (pre ++ s ++ 0 :: post) (Some (length pre)) delim lasts = Ok (ps, pre ++ s' ++ 0 :: post) /\
    map snd ps = map Some (tokens delim s) /\
    (forall p t, In (p, t) ps -> string_at (pre ++ s' ++ 0 :: post) p = t) /\
    Forall2 (fun c c' => c' = c \/ (In c delim /\ c' = 0)) s s'.
Proof.
  intros pre s post delim lasts D Z. rewrite cut_call.
  destruct (cut_ok delim D (length s) s (Nat.le_refl _) (length s + 2)%nat pre post) as (ps & s' & E & F & T & S).
  - rewrite Forall_forall. intros x I ->. contradiction.
  - lia.
  - exists ps, s'. repeat split; auto. intros p t I. rewrite Forall_forall in S. exact (S _ I).
Qed.
Print Assumptions C170_strtok.

(* the tokens are what the name says: none is empty, none has a delimiter, and gluing them together gives the
   string without its delimiters *)
Lemma runs_facts delim : forall s cur, Forall (fun x => ~ In x delim) cur ->
  concat (runs delim cur s) = rev cur ++ filter (fun c => if in_dec Z.eq_dec c delim then false else true) s /\
  Forall (fun t => t <> [] /\ Forall (fun x => ~ In x delim) t) (runs delim cur s).
Proof.
  assert (RN : forall (c : Z) l, rev (c :: l) <> []) by (intros c l E; apply (f_equal (@length Z)) in E; rewrite rev_length in E; discriminate).
  induction s as [|c s IH]; intros cur F; cbn [runs].
  - destruct cur; [split; [reflexivity|constructor]|]. cbn [concat filter]. split; [reflexivity|]. constructor; [|constructor]. split; [apply RN|]. now apply Forall_rev.
  - cbn [filter]. destruct (in_dec Z.eq_dec c delim).
    + destruct cur as [|d cur]; [now apply IH|]. destruct (IH []) as [A B]; [constructor|]. cbn [concat]. rewrite A. cbn [rev app].
      split; [reflexivity|]. constructor; auto. split; [apply (RN d cur)|]. apply (Forall_rev F).
    + destruct (IH (c :: cur)) as [A B]; [constructor; auto|]. split; auto. rewrite A. cbn [rev]. rewrite <- app_assoc. reflexivity.
Qed.
Theorem C170_tokens : forall delim s,
  concat (tokens delim s) = filter (fun c => if in_dec Z.eq_dec c delim then false else true) s /\
  (forall t, In t (tokens delim s) -> t <> [] /\ forall x, In x t -> ~ In x delim).
Proof.
  intros delim s. destruct (runs_facts delim s [] (Forall_nil _)) as [A B]. split; [exact A|].
  intros t I. rewrite Forall_forall in B. destruct (B t I) as [N F]. split; auto. now rewrite Forall_forall in F.
Qed.
Print Assumptions C170_tokens.

(* "9" then the string "  ab, c" then garbage *)
Example C170_example :
  cut 9 [57; 32; 32; 97; 98; 44; 32; 99; 0; 7] (Some 1%nat) [32; 44] None =
    Ok ([(3%nat, Some [97; 98]); (7%nat, Some [99])], [57; 32; 32; 97; 98; 0; 32; 99; 0; 7]) /\
  tokens [32; 44] [32; 32; 97; 98; 44; 32; 99] = [[97; 98]; [99]] /\
  ~ In 0 [32; 44] /\ ~ In 0 [32; 32; 97; 98; 44; 32; 99].
Proof. split; [vm_compute; reflexivity|]. split; [vm_compute; reflexivity|]. split; cbn; lia. Qed.
