(* Property C48: StringTable returns the stored strings. *)
From Coq Require Import List Arith Lia ZArith Bool.
From Verif Require Import Common StringTable.
Import ListNotations.

(* --- specification --- *)
Definition word (s : list Z) : Prop := ~ In 0%Z s.     (* a C string has no zero before its end *)
(* what a user of the table sees: the number of strings, each string, and the total size with terminators *)
Definition shows (t : table) (l : list (list Z)) : Prop :=
  Length t = length l /\ (forall i s, nth_error l i = Some s -> GetString t i = Ok s) /\
  TotalWordCapacity t = list_sum (map (fun s => length s + 1) l).
(* tables a program can have, with the strings they should hold *)
Inductive built : table -> list (list Z) -> Prop :=
| b_construct ss t : Forall word ss -> construct ss = Ok t -> built t ss
| b_append t l s t' : built t l -> l <> [] -> word s -> AppendString t s = Ok t' -> built t' (l ++ [s])
| b_add t l r l' t' : built t l -> built r l' -> add t (Some r) = Ok t' -> built t' (l ++ l')
| b_stream t l b t' : built t l -> (exists s l', l = s :: l' /\ s <> []) -> DumpToStream t = Ok b -> of_stream b = Ok t' -> built t' l.

(* --- proofs --- *)
Definition enc (l : list (list Z)) : list (option Z) := concat (map zterm l).
Fixpoint offsets (k : nat) (l : list (list Z)) : list nat := match l with [] => [] | s :: l => k :: offsets (k + (length s + 1)) l end.
Lemma enc_cons s l : enc (s :: l) = zterm s ++ enc l. Proof. reflexivity. Qed.
Lemma enc_one s : enc [s] = zterm s. Proof. unfold enc. cbn [map concat]. apply app_nil_r. Qed.
Lemma enc_app l l' : enc (l ++ l') = enc l ++ enc l'. Proof. unfold enc. rewrite map_app, concat_app. reflexivity. Qed.
Lemma zterm_length s : length (zterm s) = length s + 1. Proof. unfold zterm. rewrite app_length, map_length. reflexivity. Qed.
Lemma enc_length l : length (enc l) = list_sum (map (fun s => length s + 1) l).
Proof. induction l as [|s l IH]; [reflexivity|]. rewrite enc_cons, app_length, zterm_length, IH. reflexivity. Qed.
Lemma offsets_length l : forall k, length (offsets k l) = length l. Proof. induction l; intros k; cbn; auto. Qed.
Lemma offsets_app l l' : forall k, offsets k (l ++ l') = offsets k l ++ offsets (k + length (enc l)) l'.
Proof. induction l as [|s l IH]; intros k; cbn [app offsets]; [rewrite Nat.add_0_r; reflexivity|]. f_equal. rewrite IH. f_equal. rewrite enc_cons, app_length, zterm_length. f_equal. lia. Qed.
Lemma offsets_shift l d : forall k, map (fun x => x + d) (offsets k l) = offsets (k + d) l.
Proof. induction l as [|s l IH]; intros k; cbn [map offsets]; [reflexivity|]. f_equal. rewrite IH. f_equal. lia. Qed.
Lemma memcpy_ok {A} : forall (src m p q : list A), length m = length src -> memcpy (p ++ m ++ q) (length p) src = Ok (p ++ src ++ q).
Proof.
  induction src as [|x src IH]; intros m p q L; destruct m as [|y m]; try discriminate L; [reflexivity|]. cbn [memcpy]. rewrite set_ok by (rewrite app_length; cbn; lia). cbn [bind].
  rewrite upd_app_r by lia. rewrite Nat.sub_diag. cbn [app upd]. replace (p ++ x :: m ++ q) with ((p ++ [x]) ++ m ++ q) by (rewrite <- app_assoc; reflexivity). replace (S (length p)) with (length (p ++ [x])) by (rewrite app_length; cbn; lia).
  rewrite IH by (cbn in L; lia). rewrite <- app_assoc. reflexivity.
Qed.
Lemma memcpy_end {A} (p m src : list A) : length m = length src -> memcpy (p ++ m) (length p) src = Ok (p ++ src).
Proof. intros L. pose proof (memcpy_ok src m p [] L) as E. rewrite !app_nil_r in E. exact E. Qed.
Lemma cstring_zterm s r : word s -> cstring (zterm s ++ r) = Ok s.
Proof.
  unfold zterm. induction s as [|c s IH]; intros W; [reflexivity|]. cbn [map app cstring]. destruct (Z.eqb_spec c 0) as [->|N]; [exfalso; apply W; left; reflexivity|].
  rewrite IH by (intros X; apply W; right; exact X). reflexivity.
Qed.
Definition canon (l : list (list Z)) : table := mk (enc l) (offsets 0 l).
Lemma nth_split {A} (l : list A) i x : nth_error l i = Some x -> exists a b, l = a ++ x :: b /\ length a = i.
Proof. intros H. destruct (nth_error_split l i H) as (a & b & E & L). eauto. Qed.
Lemma skipn_len {A} (p q : list A) n : n = length p -> skipn n (p ++ q) = q.
Proof. intros ->. rewrite skipn_app, skipn_all, Nat.sub_diag. reflexivity. Qed.
Lemma canon_get l i s : Forall word l -> nth_error l i = Some s -> get (indices (canon l)) i = Ok (length (enc (firstn i l))) /\ GetString (canon l) i = Ok s.
Proof.
  intros W E. destruct (nth_split l i s E) as (a & b & -> & <-). unfold GetString. cbn [canon strings indices].
  assert (Eg : get (offsets 0 (a ++ s :: b)) (length a) = Ok (length (enc a))).
  { apply get_some. rewrite offsets_app. cbn [offsets]. rewrite nth_error_app2 by (rewrite offsets_length; lia). rewrite offsets_length, Nat.sub_diag. reflexivity. }
  rewrite firstn_app, Nat.sub_diag, firstn_all, app_nil_r. split; [exact Eg|]. rewrite Eg. cbn [bind]. rewrite enc_app, skipn_len by reflexivity. rewrite enc_cons. apply cstring_zterm.
  rewrite Forall_forall in W. apply W. apply in_or_app. right. left. reflexivity.
Qed.
Lemma canon_shows l : Forall word l -> shows (canon l) l.
Proof. intros W. split; [apply offsets_length|]. split; [intros i s E; apply (canon_get l i s W E)|apply enc_length]. Qed.
Lemma copy_loop_ok : forall rem don, copy_loop (enc don ++ repeat None (length (enc rem))) (offsets 0 don ++ map (fun s => length s + 1) rem) (length don) (length (enc don)) rem = Ok (enc (don ++ rem), offsets 0 (don ++ rem)).
Proof.
  induction rem as [|s rem IH]; intros don; cbn [copy_loop map].
  - rewrite !app_nil_r. reflexivity.
  - rewrite (get_some _ _ (length s + 1)) by (rewrite nth_error_app2 by (rewrite offsets_length; lia); rewrite offsets_length, Nat.sub_diag; reflexivity). cbn [bind].
    rewrite set_ok by (rewrite app_length, offsets_length; cbn; lia). cbn [bind]. rewrite upd_app_r by (rewrite offsets_length; lia). rewrite offsets_length, Nat.sub_diag. cbn [upd].
    rewrite firstn_all2 by (rewrite zterm_length; lia). rewrite enc_cons, app_length, repeat_app, zterm_length.
    rewrite memcpy_ok by (rewrite repeat_length, zterm_length; reflexivity). cbn [bind].
    specialize (IH (don ++ [s])). rewrite enc_app, offsets_app in IH. cbn [offsets] in IH. rewrite <- !app_assoc in IH. cbn [app] in IH. rewrite app_length in IH. cbn [length] in IH. rewrite app_length in IH.
    replace (enc [s]) with (zterm s) in IH by (unfold enc; cbn; rewrite app_nil_r; reflexivity). rewrite zterm_length in IH. replace (length don + 1) with (S (length don)) in IH by lia. exact IH.
Qed.
Lemma fold_sum l : forall a, fold_left (fun a n => a + n) l a = a + list_sum l.
Proof. induction l as [|x l IH]; intros a; cbn [fold_left list_sum fold_right]; [lia|]. rewrite IH. unfold list_sum. lia. Qed.
Lemma construct_ok ss : construct ss = Ok (canon ss).
Proof.
  unfold construct. destruct ss as [|s ss]; [reflexivity|]. cbn [length Nat.eqb]. rewrite fold_sum, Nat.add_0_l, <- enc_length. pose proof (copy_loop_ok (s :: ss) []) as E. cbn [app length] in E. cbn [offsets app] in E.
  change (enc []) with (@nil (option Z)) in E. cbn [app length] in E. rewrite E. reflexivity.
Qed.
Lemma grow_ok {A} (l : list (option A)) n : grow l (length l + n) = l ++ repeat None n.
Proof. unfold grow. rewrite firstn_all2 by lia. f_equal. f_equal. lia. Qed.
Lemma append_ok l s : Forall word l -> l <> [] -> AppendString (canon l) s = Ok (canon (l ++ [s])).
Proof.
  intros W N. unfold AppendString. cbn [canon strings indices]. rewrite offsets_length. destruct (Nat.eqb_spec (length l) 0) as [L|L]; [destruct l; [congruence|discriminate]|].
  destruct (exists_last N) as (a & z & ->). rewrite app_length. cbn [length]. replace (length a + 1 - 1) with (length a) by lia.
  destruct (canon_get (a ++ [z]) (length a) z W) as [E1 E2]; [rewrite nth_error_app2 by lia; rewrite Nat.sub_diag; reflexivity|]. unfold GetString in E2. cbn [canon strings indices] in *. rewrite E1 in *. cbn [bind] in *. rewrite E2. cbn [bind].
  rewrite firstn_app, firstn_all, Nat.sub_diag, app_nil_r. rewrite grow_ok, memcpy_end by (rewrite repeat_length, zterm_length; reflexivity). cbn [bind]. unfold canon. do 2 f_equal.
  - rewrite (enc_app (a ++ [z]) [s]), enc_one. reflexivity.
  - rewrite (offsets_app (a ++ [z]) [s]). cbn [offsets]. do 2 f_equal. rewrite enc_app, app_length, enc_one, zterm_length. lia.
Qed.
Lemma array_add_ok {A} (a b : list (option A)) : array_add a (Some b) = Ok (a ++ b).
Proof. unfold array_add. rewrite grow_ok, memcpy_end by apply repeat_length. reflexivity. Qed.
Lemma add_ok l l' : add (canon l) (Some (canon l')) = Ok (canon (l ++ l')).
Proof.
  unfold add. cbn [option_map]. rewrite !array_add_ok. cbn [bind canon strings indices]. rewrite <- map_app, map_map, map_id, firstn_app, skipn_app, firstn_all, skipn_all, Nat.sub_diag. cbn [firstn skipn app]. rewrite app_nil_r, offsets_shift.
  unfold canon. rewrite enc_app, offsets_app. reflexivity.
Qed.
Lemma dump_enc l : exists b, dump_loop (enc l) = Ok b /\ map Some b = enc l.
Proof.
  assert (G : forall m : list Z, dump_loop (map Some m) = Ok m) by (induction m as [|c m IH]; [reflexivity|cbn; rewrite IH; reflexivity]).
  assert (E : exists b, map Some b = enc l). { induction l as [|s l [b E]]; [exists []; reflexivity|]. exists (s ++ [0%Z] ++ b). rewrite enc_cons, !map_app, E. unfold zterm. rewrite <- app_assoc. reflexivity. }
  destruct E as [b E]. exists b. split; [rewrite <- E; apply G|exact E].
Qed.
Definition zeros (m : list (option Z)) : nat := length (filter (fun c => match c with Some 0%Z => true | _ => false end) m).
Lemma zeros_app a b : zeros (a ++ b) = zeros a + zeros b. Proof. unfold zeros. rewrite filter_app, app_length. reflexivity. Qed.
Lemma zeros_word s : word s -> zeros (map Some s) = 0.
Proof. unfold zeros. induction s as [|c s IH]; intros W; [reflexivity|]. cbn [map filter]. destruct c; [exfalso; apply W; left; reflexivity|..]; apply IH; intros X; apply W; right; exact X. Qed.
Lemma zeros_enc l : Forall word l -> zeros (enc l) = length l.
Proof. induction 1 as [|s l W _ IH]; [reflexivity|]. rewrite enc_cons, zeros_app, IH. unfold zterm. rewrite zeros_app, zeros_word by exact W. reflexivity. Qed.
Lemma strccount_ok buf c0 : nth_error buf 0 = Some (Some c0) -> c0 <> 0%Z -> (forall c, In c buf -> c <> None) -> forall n i ret, i + n = length buf -> strccount_loop buf n i ret = Ok (ret + zeros (skipn i buf)).
Proof.
  intros E0 N0 Hs. induction n as [|n IH]; intros i ret L; cbn [strccount_loop].
  - rewrite skipn_all2 by lia. rewrite Nat.add_0_r. reflexivity.
  - rewrite (get_some _ _ _ E0). cbn [bind]. destruct (Z.eqb_spec c0 0); [congruence|]. destruct (nth_error_ex buf i ltac:(lia)) as [[c|] Ec]; [|exfalso; apply (Hs None); [eapply nth_error_In; exact Ec|reflexivity]].
    rewrite (get_some _ _ _ Ec). cbn [bind]. rewrite IH by lia. f_equal. rewrite (skipn_cons _ _ _ Ec). unfold zeros. cbn [filter]. destruct c; cbn [Z.eqb length]; lia.
Qed.
(* the loop over the characters of the string number j, then over the rest *)
Lemma stream_word buf s : forall n p q idx i j k, buf = p ++ zterm s ++ q -> i = length p -> word s -> j < length idx -> nth_error idx j = Some k ->
  stream_loop (length s + 1 + n) buf idx i j =
  (let idx := upd idx j (k + (length s + 1)) in do idx <- (if S j <? length idx then set idx (S j) (k + (length s + 1)) else Ok idx); stream_loop n buf idx (i + (length s + 1)) (S j)).
Proof.
  induction s as [|c s IH]; intros n p q idx i j k Eb Ei W Lj Ek.
  - cbn [length Nat.add stream_loop]. destruct (Nat.ltb_spec j (length idx)); [|lia]. rewrite (get_some _ _ _ Ek). cbn [bind]. rewrite set_ok by lia. cbn [bind].
    rewrite (get_some buf i (Some 0%Z)) by (rewrite Eb, nth_error_app2, Ei, Nat.sub_diag by lia; reflexivity). cbn [bind Z.eqb]. replace (k + 1) with (S k) by lia. destruct (Nat.ltb_spec (S j) (length (upd idx j (S k)))) as [L|L].
    + rewrite (get_some (upd idx j (S k)) j (S k)) by (apply nth_error_upd_eq; lia). cbn [bind]. rewrite set_ok by exact L. cbn [bind]. f_equal. lia.
    + cbn [bind]. f_equal. lia.
  - cbn [length Nat.add stream_loop]. destruct (Nat.ltb_spec j (length idx)); [|lia]. rewrite (get_some _ _ _ Ek). cbn [bind]. rewrite set_ok by lia. cbn [bind].
    rewrite (get_some buf i (Some c)) by (rewrite Eb, nth_error_app2, Ei, Nat.sub_diag by lia; reflexivity). cbn [bind]. destruct (Z.eqb_spec c 0) as [->|Nc]; [exfalso; apply W; left; reflexivity|].
    rewrite (IH n (p ++ [Some c]) q _ (S i) j (S k)).
    + rewrite !upd_upd. cbn zeta. replace (S k + (length s + 1)) with (k + S (length s + 1)) by lia. replace (S i + (length s + 1)) with (i + S (length s + 1)) by lia. reflexivity.
    + rewrite Eb, <- app_assoc. reflexivity.
    + rewrite app_length. cbn. lia.
    + intros X. apply W. right. exact X.
    + rewrite upd_length. lia.
    + apply nth_error_upd_eq. lia.
Qed.
Lemma stream_loop_all : forall rem don, Forall word rem -> 
  stream_loop (length (enc rem)) (enc (don ++ rem)) (offsets 0 don ++ match rem with [] => [] | s :: rem => length (enc don) :: match rem with [] => [] | _ :: rem' => length (enc don) :: repeat 0 (length rem') end end) (length (enc don)) (S (length don)) = Ok (offsets 0 (don ++ rem)).
Proof.
  induction rem as [|s rem IH]; intros don W.
  - cbn [enc map concat length stream_loop]. rewrite !app_nil_r. reflexivity.
  - apply Forall_cons_iff in W. destruct W as [Ws W]. destruct rem as [|s' rem].
    + (* the last string: j is past the indices *)
      replace (length (enc [s])) with (S (length s)) by (unfold enc; cbn [map concat]; rewrite app_nil_r, zterm_length; lia). cbn [stream_loop]. rewrite app_length, offsets_length. cbn [length]. destruct (Nat.ltb_spec (S (length don)) (length don + 1)); [lia|].
      rewrite offsets_app. reflexivity.
    + specialize (IH (don ++ [s]) W). rewrite (enc_cons s), app_length, zterm_length.
      rewrite (stream_word _ s _ (enc don) (enc (s' :: rem)) _ _ _ (length (enc don))).
      * cbn zeta. rewrite upd_length, app_length, offsets_length. cbn [length]. rewrite repeat_length.
        replace (offsets 0 don ++ length (enc don) :: length (enc don) :: repeat 0 (length rem)) with ((offsets 0 don ++ [length (enc don)]) ++ length (enc don) :: repeat 0 (length rem)) by (rewrite <- app_assoc; reflexivity).
        assert (Lo : length (offsets 0 don ++ [length (enc don)]) = S (length don)) by (rewrite app_length, offsets_length; cbn; lia).
        rewrite upd_app_r by lia. rewrite Lo, Nat.sub_diag. cbn [upd]. rewrite <- (app_assoc don [s] (s' :: rem)) in IH. cbn [app] in IH. rewrite offsets_app in IH. cbn [offsets app] in IH. rewrite Nat.add_0_l in IH.
        assert (Le : length (enc (don ++ [s])) = length (enc don) + (length s + 1)) by (rewrite enc_app, app_length, enc_one, zterm_length; reflexivity).
        assert (Ld : length (don ++ [s]) = S (length don)) by (rewrite app_length; cbn; lia). rewrite Le, Ld in IH.
        destruct (Nat.ltb_spec (S (S (length don))) (length don + S (S (length rem)))) as [L|L].
        -- destruct rem as [|s'' rem]; [cbn in L; lia|]. rewrite set_ok by (rewrite app_length, Lo; cbn [length]; rewrite repeat_length; cbn; lia). cbn [bind]. cbn [length repeat].
           rewrite upd_app_r by lia. rewrite Lo. replace (S (S (length don)) - S (length don)) with 1 by lia. cbn [upd]. exact IH.
        -- destruct rem as [|s'' rem]; [|cbn in L; lia]. cbn [bind length repeat]. exact IH.
      * rewrite enc_app, enc_cons. reflexivity.
      * reflexivity.
      * exact Ws.
      * rewrite app_length, offsets_length. cbn [length]. lia.
      * rewrite nth_error_app2 by (rewrite offsets_length; lia). rewrite offsets_length. replace (S (length don) - length don) with 1 by lia. reflexivity.
Qed.
Lemma of_stream_ok s l b : Forall word (s :: l) -> s <> [] -> map Some b = enc (s :: l) -> of_stream b = Ok (canon (s :: l)).
Proof.
  intros W Ns E. unfold of_stream. assert (Lb : length b = length (enc (s :: l))) by (rewrite <- E, map_length; reflexivity). assert (Lp : length (enc (s :: l)) <> 0) by (rewrite enc_cons, app_length, zterm_length; lia).
  destruct (Nat.eqb_spec (length b) 0) as [|_]; [lia|]. rewrite E.
  destruct (@exists_last _ (s :: l)) as (a & z & El); [discriminate|]. assert (Ez : enc (s :: l) = (enc a ++ map Some z) ++ [Some 0%Z]) by (rewrite El, enc_app, enc_one; unfold zterm; rewrite app_assoc; reflexivity).
  rewrite set_ok by lia. assert (Eu : upd (enc (s :: l)) (length b - 1) (Some 0%Z) = enc (s :: l)) by (apply upd_same; rewrite Lb, Ez, app_length, nth_error_app2 by (rewrite app_length; cbn; lia); cbn [length]; replace (_ + 1 - 1 - _) with 0 by lia; reflexivity).
  rewrite Eu. cbn [bind].
  destruct s as [|c s]; [congruence|]. apply Forall_cons_iff in W as W'. destruct W' as [Wc _]. rewrite (strccount_ok _ c) by (auto; try (intros ->; apply Wc; left; reflexivity); intros x Hx; rewrite <- E in Hx; apply in_map_iff in Hx; destruct Hx as (y & <- & _); discriminate).
  cbn [skipn bind]. rewrite zeros_enc by exact W. cbn [Nat.add length]. pose proof (stream_loop_all ((c :: s) :: l) [] W) as Es. cbn [app length offsets] in Es. change (enc []) with (@nil (option Z)) in Es. cbn [length] in Es.
  replace (repeat 0 (S (length l))) with (0 :: match l with [] => [] | _ :: rem' => 0 :: repeat 0 (length rem') end) by (destruct l; reflexivity). rewrite Es. reflexivity.
Qed.
Lemma built_canon t l : built t l -> Forall word l /\ t = canon l.
Proof.
  induction 1 as [ss t W E|t l s t' _ [W ->] N Ws E|t l r l' t' _ [W ->] _ [W' ->] E|t l b t' _ [W ->] (s & l' & -> & Ns) Ed Es].
  - split; [exact W|]. rewrite construct_ok in E. congruence.
  - split; [apply Forall_app; auto|]. rewrite append_ok in E by assumption. congruence.
  - split; [apply Forall_app; auto|]. rewrite add_ok in E. congruence.
  - split; [exact W|]. unfold DumpToStream in Ed. cbn [canon strings] in Ed. destruct (dump_enc (s :: l')) as (b' & Eb & Em). rewrite Eb in Ed. injection Ed as <-. rewrite (of_stream_ok s l' b' W Ns Em) in Es. congruence.
Qed.
(* C48, for tables not added to themselves: construction, += and AppendString succeed and the table holds exactly the
   strings it should, in order; writing a table out and reading it back gives the same strings (if the first one is not
   empty).  Missing from the full claim: t += t, see C48_self_add_refuted. *)
Theorem C48_StringTable_partial :
  (forall t l, built t l -> shows t l) /\
  (forall ss, Forall word ss -> exists t, construct ss = Ok t /\ built t ss) /\
  (forall t l s, built t l -> l <> [] -> word s -> exists t', AppendString t s = Ok t' /\ built t' (l ++ [s])) /\
  (forall t l r l', built t l -> built r l' -> exists t', add t (Some r) = Ok t' /\ built t' (l ++ l')) /\
  (forall t s l, built t (s :: l) -> s <> [] -> exists b t', DumpToStream t = Ok b /\ of_stream b = Ok t' /\ built t' (s :: l)).
Proof.
  split; [intros t l B; destruct (built_canon t l B) as [W ->]; apply canon_shows; exact W|].
  split; [intros ss W; eexists; split; [apply construct_ok|]; apply b_construct; [exact W|apply construct_ok]|].
  split; [intros t l s B N Ws; destruct (built_canon t l B) as [W ->]; pose proof (append_ok l s W N) as E; eexists; split; [exact E|]; eapply b_append; eauto|].
  split; [intros t l r l' B B'; destruct (built_canon t l B) as [W E]; destruct (built_canon r l' B') as [W' E']; subst; eexists; split; [apply add_ok|]; eapply b_add; eauto; apply add_ok|].
  intros t s l B Ns. destruct (built_canon t _ B) as [W ->]. destruct (dump_enc (s :: l)) as (b & Eb & Em). pose proof (of_stream_ok s l b W Ns Em) as Eo. exists b. eexists. split; [exact Eb|]. split; [exact Eo|]. exact B.
Qed.
Print Assumptions C48_StringTable_partial.

(* t += t writes past the end of the enlarged buffer: Array::operator+= reads the size of the right array after growing
   the left one, which is the same array *)
Theorem C48_self_add_refuted : exists t l, built t l /\ shows t l /\ add t None = UB.
Proof.
  exists (canon [[97%Z]]), [[97%Z]]. assert (B : built (canon [[97%Z]]) [[97%Z]]) by (apply b_construct; [repeat constructor; intros [|[]]; discriminate|reflexivity]).
  split; [exact B|]. split; [apply C48_StringTable_partial; exact B|reflexivity].
Qed.
Print Assumptions C48_self_add_refuted.
(* a table whose first string is empty is read back from a stream without any string; AppendString on an empty table
   reads index -1 *)
Theorem C48_stream_first_empty_refuted : exists t b t', built t [[]; [97%Z]] /\ DumpToStream t = Ok b /\ of_stream b = Ok t' /\ Length t' = 0.
Proof. exists (canon [[]; [97%Z]]), [0%Z; 97%Z; 0%Z]. eexists. split; [apply b_construct; [repeat constructor; [intros []|intros [|[]]; discriminate]|reflexivity]|]. repeat split. Qed.
Print Assumptions C48_stream_first_empty_refuted.
Theorem C48_append_to_empty_refuted : exists t, construct [] = Ok t /\ forall s, AppendString t s = UB.
Proof. exists empty. split; reflexivity. Qed.
Print Assumptions C48_append_to_empty_refuted.

Example C48_example : exists t u, construct [[97; 98]; []; [99]]%Z = Ok t /\ AppendString t [100%Z] = Ok u /\ built u [[97; 98]; []; [99]; [100]]%Z /\
  GetString u 1 = Ok [] /\ GetString u 3 = Ok [100%Z] /\ TotalWordCapacity u = 8.
Proof.
  eexists. eexists. split; [reflexivity|]. split; [reflexivity|]. split.
  - apply (b_append (canon [[97; 98]; []; [99]]%Z) [[97; 98]; []; [99]]%Z [100%Z]); [apply b_construct; [|reflexivity]|discriminate|intros [|[]]; discriminate|reflexivity].
    repeat constructor; unfold word; cbn; intuition discriminate.
  - repeat split.
Qed.
