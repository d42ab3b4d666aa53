(** * JSON: termination of the reader, and independence of the fuel *)
From Coq Require Import ZArith List Bool Lia ZifyBool ZifyNat.
From Verif Require Import Common BitUtil JSON.
Import ListNotations.
Local Open Scope Z_scope.

Definition len (s : stream) : nat := length (rest s).

(** At the end-of-file or fail state nothing is left to read. *)
Definition bytes (l : list Z) : Prop := Forall (fun c => 0 <= c < 256) l.
Definition inv (s : stream) : Prop :=
  (good s = false -> rest s = []) /\ bytes (rest s).

Lemma inv_fail s : inv s -> failb s = true -> rest s = [].
Proof. intros [I _] F. apply I. unfold good. rewrite F. destruct (eofb s); auto. Qed.

Lemma inv_hd s : inv s -> rest s <> [] -> 0 <= hd 0 (rest s) < 256.
Proof. intros [_ B] H. destruct (rest s); [congruence|]. inversion B; auto. Qed.

Lemma peek_spec s p s' : peek s = (p, s') -> inv s ->
  inv s' /\ rest s' = rest s /\ (rest s = [] -> p = -1) /\
  (rest s <> [] -> s' = s /\ p = hd 0 (rest s)).
Proof.
  unfold peek, inv. intros E [I B]. destruct s as [r e f]; cbn in *.
  destruct (good (Str r e f)) eqn:G.
  - destruct r; inversion E; subst; cbn in *.
    + repeat split; auto; intros; try congruence.
    + repeat split; auto; intros; congruence.
  - specialize (I eq_refl). subst. inversion E; subst; cbn.
    repeat split; auto; congruence.
Qed.

Lemma get_spec s c s' : get s = (c, s') -> inv s ->
  inv s' /\ rest s' = tl (rest s) /\ (rest s = [] -> c = -1) /\
  (rest s <> [] -> c = hd 0 (rest s) /\ failb s' = false /\ good s' = true).
Proof.
  unfold get, inv. intros E [I B]. destruct s as [r e f]; cbn in *.
  destruct (good (Str r e f)) eqn:G.
  - destruct r; inversion E; subst; cbn in *.
    + repeat split; auto; intros; try congruence.
    + inversion B; subst. unfold good in *; cbn in *. destruct e, f; cbn in *; try discriminate.
      repeat split; auto; intros; congruence.
  - specialize (I eq_refl). subst. inversion E; subst; cbn.
    repeat split; auto; congruence.
Qed.

Ltac sp := repeat match goal with |- _ /\ _ => split end.

Lemma none_of_spec cs : forall s b s', none_of cs s = (b, s') -> inv s ->
  inv s' /\ rest s' = rest s /\ (rest s <> [] -> s' = s) /\
  (b = true -> rest s <> [] -> ~ In (hd 0 (rest s)) cs) /\
  (b = true -> In (-1) cs -> rest s <> []) /\
  (b = false -> rest s = [] \/ In (hd 0 (rest s)) cs).
Proof.
  induction cs as [|c cs IH]; intros s b s' E I; cbn in E.
  - inversion E; subst. sp; auto; try easy.
  - destruct (peek s) as [p s1] eqn:P. apply peek_spec in P; auto.
    destruct P as (I1 & R1 & P0 & P1).
    destruct (p =? c) eqn:D.
    + inversion E; subst. sp; auto; try easy.
      * intros H. apply P1 in H. tauto.
      * intros _. destruct (rest s) eqn:Rs; auto. right.
        destruct P1 as [_ ->]; [congruence|]. left. lia.
    + apply IH in E; auto. destruct E as (I2 & R2 & S2 & A & B & C).
      rewrite R1 in *. split; [auto|]. split; [auto|]. split.
      { intros H. rewrite S2 by auto. apply P1; auto. }
      split.
      { intros Hb Hr [H|H]; [|eapply A; eauto].
        destruct (P1 Hr) as [_ ->]. lia. }
      split.
      { intros Hb [H|H]; [|eapply B; eauto].
        subst c. intros Hr. rewrite (P0 Hr) in D. discriminate. }
      intros Hb. destruct (C Hb); auto. right. right. auto.
Qed.

Lemma more_spec cs s b s' : more cs s = (b, s') -> inv s ->
  inv s' /\ rest s' = rest s /\ (rest s <> [] -> s' = s) /\
  (b = true -> rest s <> [] -> ~ In (hd 0 (rest s)) cs) /\
  (b = true -> In (-1) cs -> rest s <> []) /\
  (b = false -> rest s = [] \/ In (hd 0 (rest s)) cs).
Proof.
  unfold more. intros E I. destruct (failb s) eqn:F.
  - inversion E; subst. sp; auto; try easy.
    intros _. left. apply inv_fail; auto.
  - apply none_of_spec; auto.
Qed.

(** ** The simple loops *)

Lemma eat_ws_total : forall fuel s, inv s -> (len s < fuel)%nat ->
  exists s', eat_ws fuel s = Ok s' /\ inv s' /\
    (len s' < len s \/ s' = s \/ rest s = [] /\ rest s' = [])%nat /\
    (rest s' <> [] -> isspace (hd 0 (rest s')) = false).
Proof.
  induction fuel as [|fuel IH]; intros s I L; [lia|]. cbn.
  destruct (failb s) eqn:F.
  { exists s. sp; auto. intros H. exfalso. apply H, inv_fail; auto. }
  destruct (peek s) as [p s1] eqn:P. apply peek_spec in P; auto.
  destruct P as (I1 & R1 & P0 & P1).
  destruct (isspace p) eqn:W.
  - assert (Hr : rest s <> []).
    { intros H. rewrite P0 in W; auto. discriminate. }
    destruct (P1 Hr) as [-> ->].
    destruct (get s) as [c s2] eqn:G. apply get_spec in G; auto.
    destruct G as (I2 & R2 & _). cbn.
    assert (L2 : (len s2 < len s)%nat).
    { unfold len. rewrite R2. destruct (rest s); cbn; [congruence|lia]. }
    destruct (IH s2) as (s' & E & I' & L' & W'); auto; [lia|].
    exists s'. split; [auto|]. split; [auto|]. split; [|auto]. left.
    destruct L' as [L'|[->|[Z1 Z2]]]; try lia.
    unfold len in *. rewrite Z1 in *. rewrite Z2. cbn in *. lia.
  - exists s1. split; [auto|]. split; [auto|]. split.
    + destruct (rest s) eqn:Hr; [right; right; auto|].
      right. left. apply P1. congruence.
    + intros H. rewrite R1 in H. destruct (P1 H) as [-> <-]. auto.
Qed.

Lemma tl_len s s' : rest s' = tl (rest s) -> (len s' <= len s)%nat /\
  (rest s <> [] -> len s' < len s)%nat.
Proof. unfold len. intros ->. destruct (rest s); cbn; split; intros; try congruence; lia. Qed.

Lemma eat_char_spec s o s' : eat_char s = (o, s') -> inv s -> rest s <> [] ->
  inv s' /\ (len s' < len s)%nat.
Proof.
  unfold eat_char. intros E I H.
  destruct (get s) as [c s1] eqn:G1. apply get_spec in G1; auto.
  destruct G1 as (I1 & R1 & _). destruct (tl_len _ _ R1) as [_ L1]. specialize (L1 H).
  destruct (negb (wrap 8 c =? 92)). { inversion E; subst; auto. }
  destruct (get s1) as [e s2] eqn:G2. apply get_spec in G2; auto.
  destruct G2 as (I2 & R2 & _). destruct (tl_len _ _ R2) as [L2 _].
  repeat match type of E with
  | (if ?b then (_, s2) else _) = _ => destruct b; [inversion E; subst; split; [auto|lia]|]
  end.
  destruct (e =? 117); [|inversion E; subst; split; [auto|lia]].
  destruct (get s2) as [x3 s3] eqn:G3. apply get_spec in G3; auto.
  destruct G3 as (I3 & R3 & _). destruct (tl_len _ _ R3) as [L3 _].
  destruct (get s3) as [x4 s4] eqn:G4. apply get_spec in G4; auto.
  destruct G4 as (I4 & R4 & _). destruct (tl_len _ _ R4) as [L4 _].
  destruct (get s4) as [x5 s5] eqn:G5. apply get_spec in G5; auto.
  destruct G5 as (I5 & R5 & _). destruct (tl_len _ _ R5) as [L5 _].
  destruct (get s5) as [x6 s6] eqn:G6. apply get_spec in G6; auto.
  destruct G6 as (I6 & R6 & _). destruct (tl_len _ _ R6) as [L6 _].
  inversion E; subst. split; [auto|lia].
Qed.

Lemma quoted_total : forall fuel buf s, inv s -> (len s < fuel)%nat ->
  exists b s', quoted fuel buf s = Ok (b, s') /\ inv s' /\ (len s' <= len s)%nat.
Proof.
  induction fuel as [|fuel IH]; intros buf s I L; [lia|]. cbn [quoted].
  destruct (more [34; -1] s) as [go s1] eqn:M. apply more_spec in M; auto.
  destruct M as (I1 & R1 & S1 & A & B & C). destruct go.
  - assert (H : rest s <> []) by (apply B; cbn; auto). rewrite (S1 H) in *.
    destruct (eat_char s) as [o s2] eqn:E. apply eat_char_spec in E; auto.
    destruct E as [I2 L2]. destruct (IH (buf ++ o) s2) as (b & s' & E & I' & L'); auto; [lia|].
    exists b, s'. sp; auto. lia.
  - exists buf, s1. sp; auto. unfold len. rewrite R1. lia.
Qed.

Lemma unquoted_total : forall fuel buf s, inv s -> (len s < fuel)%nat ->
  exists b s', unquoted fuel buf s = Ok (b, s') /\ inv s' /\ (len s' <= len s)%nat.
Proof.
  induction fuel as [|fuel IH]; intros buf s I L; [lia|]. cbn [unquoted].
  destruct (more [44; 125; 93; -1] s) as [go s1] eqn:M. apply more_spec in M; auto.
  destruct M as (I1 & R1 & S1 & A & B & C). destruct go.
  - assert (H : rest s <> []) by (apply B; cbn; auto). rewrite (S1 H) in *.
    destruct (get s) as [o s2] eqn:E. apply get_spec in E; auto.
    destruct E as (I2 & R2 & _). destruct (tl_len _ _ R2) as [_ L2]. specialize (L2 H).
    destruct (IH (buf ++ [wrap 8 o]) s2) as (b & s' & E & I' & L'); auto; [lia|].
    exists b, s'. sp; auto. lia.
  - exists buf, s1. sp; auto. unfold len. rewrite R1. lia.
Qed.

Lemma skip_to_total : forall fuel c1 c2 s, inv s -> (len s < fuel)%nat ->
  exists s', skip_to fuel [c1; c2; -1] s = Ok s' /\ inv s' /\
    ((len s' < len s)%nat \/ rest s = [] /\ rest s' = [] \/
     s' = s /\ rest s <> [] /\ (hd 0 (rest s) = c1 \/ hd 0 (rest s) = c2)).
Proof.
  induction fuel as [|fuel IH]; intros c1 c2 s I L; [lia|]. cbn [skip_to].
  destruct (more [c1; c2; -1] s) as [go s1] eqn:M. apply more_spec in M; auto.
  destruct M as (I1 & R1 & S1 & A & B & C). destruct go.
  - assert (H : rest s <> []) by (apply B; cbn; auto). rewrite (S1 H) in *.
    destruct (get s) as [o s2] eqn:E. apply get_spec in E; auto. cbn [snd].
    destruct E as (I2 & R2 & _). destruct (tl_len _ _ R2) as [_ L2]. specialize (L2 H).
    destruct (IH c1 c2 s2) as (s' & E & I' & L'); auto; [lia|].
    exists s'. split; [auto|]. split; [auto|]. left.
    destruct L' as [L'|[[Z1 Z2]|[-> _]]]; try lia.
    unfold len in *. rewrite Z1 in *. rewrite Z2. cbn in *. lia.
  - exists s1. split; [auto|]. split; [auto|]. right.
    assert (Hd := inv_hd _ I).
    destruct (rest s) eqn:Hr; [left; auto|]. right. split; [apply S1; congruence|].
    split; [congruence|]. specialize (Hd ltac:(congruence)).
    destruct (C eq_refl) as [|H]; [congruence|]. cbn in H, Hd. cbn.
    destruct H as [H|[H|[H|[]]]]; auto. lia.
Qed.

(** After an element something has been consumed, unless the stream is at
    the closing bracket or at the end. *)
Lemma after_elem_total fuel close s : inv s -> (len s < fuel)%nat ->
  exists s', after_elem fuel close s = Ok s' /\ inv s' /\ (len s' <= len s)%nat /\
    (rest s <> [] -> hd 0 (rest s) <> close -> (len s' < len s)%nat).
Proof.
  intros I L. unfold after_elem.
  destruct (skip_to_total fuel 44 close s I L) as (s1 & E1 & I1 & D1). rewrite E1. cbn [bind].
  set (s2 := if failb s1 then s1 else _).
  assert (Q : inv s2 /\ (len s2 <= len s1)%nat /\
              (rest s1 <> [] -> hd 0 (rest s1) = 44 -> (len s2 < len s1)%nat)).
  { subst s2. destruct (failb s1) eqn:F.
    - sp; auto. intros H. exfalso. apply H, inv_fail; auto.
    - destruct (peek s1) as [p s3] eqn:P. apply peek_spec in P; auto.
      destruct P as (I3 & R3 & P0 & P1). destruct (p =? 44) eqn:D.
      + destruct (get s3) as [x s4] eqn:G. apply get_spec in G; auto. cbn [snd].
        destruct G as (I4 & R4 & _). rewrite R3 in R4. destruct (tl_len _ _ R4) as [La Lb].
        sp; auto.
      + split; [auto|]. split; [unfold len; rewrite R3; lia|].
        intros H1 H2. destruct (P1 H1) as [_ ->]. lia. }
  destruct Q as (I2 & L2 & L2').
  assert (L1 : (len s1 <= len s)%nat).
  { destruct D1 as [D|[[D D']|[-> _]]]; try lia. unfold len. rewrite D, D'. lia. }
  destruct (eat_ws_total fuel s2) as (s3 & E3 & I3 & D3 & _); auto; [lia|].
  exists s3. split; [auto|]. split; [auto|].
  assert (L3 : (len s3 <= len s2)%nat).
  { destruct D3 as [D|[->|[D D']]]; try lia. unfold len. rewrite D, D'. lia. }
  split; [lia|]. intros H1 H2.
  destruct D1 as [D|[[D D']|[-> [_ [D|D]]]]]; try lia; try congruence.
Qed.

Lemma parse_str_total fuel s : inv s -> (len s < fuel)%nat ->
  exists b s', parse_str fuel s = Ok (b, s') /\ inv s' /\ (len s' <= len s)%nat /\
   (rest s <> [] -> (len s' < len s)%nat \/
      s' = s /\ (hd 0 (rest s) = 44 \/ hd 0 (rest s) = 93 \/ hd 0 (rest s) = 125)).
Proof.
  intros I L. unfold parse_str.
  destruct (none_of [44; 93; 125] s) as [ok s1] eqn:N. apply none_of_spec in N; auto.
  destruct N as (I1 & R1 & S1 & A & B & C). destruct ok; cbn [negb].
  - destruct (get s1) as [c s2] eqn:G. apply get_spec in G; auto.
    destruct G as (I2 & R2 & _). rewrite R1 in R2. destruct (tl_len _ _ R2) as [La Lb].
    destruct (negb (wrap 8 c =? 34)).
    + destruct (unquoted_total fuel [wrap 8 c] s2) as (b & s' & E & I' & L'); auto; [lia|].
      exists b, s'. sp; auto; [lia|]. intros H. specialize (Lb H). lia.
    + destruct (quoted_total fuel [] s2) as (b & s' & E & I' & L'); auto; [lia|].
      rewrite E. cbn [bind]. destruct (get s') as [c' s3] eqn:G. apply get_spec in G; auto.
      destruct G as (I3 & R3 & _). destruct (tl_len _ _ R3) as [La' Lb'].
      exists b, s3. cbn. sp; auto; [lia|]. intros H. specialize (Lb H). lia.
  - exists [], s1. split; [auto|]. split; [auto|]. split; [unfold len; rewrite R1; lia|].
    intros H. right. split; [auto|]. destruct (C eq_refl) as [|H']; [congruence|].
    cbn in H'. intuition auto.
Qed.

Lemma expect_spec c s b s' : expect c s = (b, s') -> inv s ->
  inv s' /\ (len s' <= len s)%nat /\ (rest s <> [] -> len s' < len s)%nat.
Proof.
  unfold expect. intros E I. destruct (failb s) eqn:F.
  - inversion E; subst. sp; auto. intros H. exfalso. apply H, inv_fail; auto.
  - destruct (get s) as [x s1] eqn:G. apply get_spec in G; auto.
    destruct G as (I1 & R1 & _). destruct (tl_len _ _ R1) as [La Lb].
    inversion E; subst. auto.
Qed.

Lemma close_bracket_spec c s : inv s ->
  inv (close_bracket c s) /\ (len (close_bracket c s) <= len s)%nat.
Proof.
  unfold close_bracket. intros I. destruct (peek s) as [p s1] eqn:P.
  apply peek_spec in P; auto. destruct P as (I1 & R1 & _).
  destruct (p =? c).
  - destruct (get s1) as [x s2] eqn:G. apply get_spec in G; auto.
    destruct G as (I2 & R2 & _). cbn. split; [auto|].
    rewrite R1 in R2. apply (tl_len _ _ R2).
  - split; [auto|]. unfold len. rewrite R1. lia.
Qed.

Lemma eat_ws_le fuel s : inv s -> (len s < fuel)%nat ->
  exists s', eat_ws fuel s = Ok s' /\ inv s' /\ (len s' <= len s)%nat.
Proof.
  intros I L. destruct (eat_ws_total fuel s I L) as (s' & E & I' & D & _).
  exists s'. sp; auto. destruct D as [D|[->|[D D']]]; try lia.
  unfold len. rewrite D, D'. lia.
Qed.


(** ** The whole parser *)

Definition total_value fuel := forall s, inv s -> (2 * len s + 2 <= fuel)%nat ->
  exists v s', parse_value fuel s = Ok (v, s') /\ inv s' /\ (len s' <= len s)%nat /\
    (rest s <> [] -> (len s' < len s)%nat \/
       s' = s /\ (hd 0 (rest s) = 44 \/ hd 0 (rest s) = 93 \/ hd 0 (rest s) = 125)).
Definition total_array fuel := forall acc s, inv s -> (2 * len s + 3 <= fuel)%nat ->
  exists l s', array_loop fuel acc s = Ok (l, s') /\ inv s' /\ (len s' <= len s)%nat.
Definition total_object fuel := forall acc s, inv s -> (2 * len s + 3 <= fuel)%nat ->
  exists l s', object_loop fuel acc s = Ok (l, s') /\ inv s' /\ (len s' <= len s)%nat.

Lemma total_all : forall fuel, total_value fuel /\ total_array fuel /\ total_object fuel.
Proof.
  induction fuel as [|fuel (IHv & IHa & IHo)].
  { split; [|split]; intro; intros; lia. }
  split; [|split].
  - intros s I L. cbn [parse_value].
    destruct (eat_ws_total fuel s I) as (s1 & E1 & I1 & D1 & W1); [lia|].
    rewrite E1. cbn [bind].
    assert (L1 : (len s1 <= len s)%nat).
    { destruct D1 as [D|[->|[D D']]]; try lia. unfold len. rewrite D, D'. lia. }
    destruct (peek s1) as [c s2] eqn:P. apply peek_spec in P; auto.
    destruct P as (I2 & R2 & P0 & P1).
    assert (L2 : len s2 = len s1) by (unfold len; rewrite R2; auto).
    destruct (c =? 123) eqn:C1; [|destruct (c =? 91) eqn:C2].
    + assert (H : rest s1 <> []). { intros H. rewrite P0 in C1; auto. discriminate. }
      destruct (P1 H) as [-> Hc].
      destruct (eat_ws_total fuel s1 I1) as (s3 & E3 & I3 & D3 & W3); [lia|].
      rewrite E3. cbn [bind].
      assert (L3 : (len s3 <= len s1)%nat /\ (len s3 < len s1 \/ rest s3 <> [])%nat).
      { destruct D3 as [D|[->|[D D']]]; [lia|auto|congruence]. }
      destruct (expect 123 s3) as [ok s4] eqn:X. apply expect_spec in X; auto.
      destruct X as (I4 & L4 & L4').
      assert (L5 : (len s4 < len s)%nat).
      { destruct L3 as [? [?|Hr]]; [lia|]. specialize (L4' Hr). lia. }
      destruct ok.
      * destruct (eat_ws_le fuel s4 I4) as (s5 & E5 & I5 & L6); [lia|]. rewrite E5. cbn [bind].
        destruct (IHo [] s5 I5) as (l & s6 & E6 & I6 & L7); [lia|]. rewrite E6. cbn [bind].
        destruct (close_bracket_spec 125 s6 I6) as [I7 L8].
        eexists _, _. split; [reflexivity|]. split; [auto|]. split; [lia|]. intros _. left. lia.
      * eexists _, _. split; [reflexivity|]. split; [auto|]. split; [lia|]. intros _. left. lia.
    + assert (H : rest s1 <> []). { intros H. rewrite P0 in C2; auto. discriminate. }
      destruct (P1 H) as [-> Hc].
      destruct (eat_ws_total fuel s1 I1) as (s3 & E3 & I3 & D3 & W3); [lia|].
      rewrite E3. cbn [bind].
      assert (L3 : (len s3 <= len s1)%nat /\ (len s3 < len s1 \/ rest s3 <> [])%nat).
      { destruct D3 as [D|[->|[D D']]]; [lia|auto|congruence]. }
      destruct (expect 91 s3) as [ok s4] eqn:X. apply expect_spec in X; auto.
      destruct X as (I4 & L4 & L4').
      assert (L5 : (len s4 < len s)%nat).
      { destruct L3 as [? [?|Hr]]; [lia|]. specialize (L4' Hr). lia. }
      destruct ok.
      * destruct (eat_ws_le fuel s4 I4) as (s5 & E5 & I5 & L6); [lia|]. rewrite E5. cbn [bind].
        destruct (IHa [] s5 I5) as (l & s6 & E6 & I6 & L7); [lia|]. rewrite E6. cbn [bind].
        destruct (close_bracket_spec 93 s6 I6) as [I7 L8].
        eexists _, _. split; [reflexivity|]. split; [auto|]. split; [lia|]. intros _. left. lia.
      * eexists _, _. split; [reflexivity|]. split; [auto|]. split; [lia|]. intros _. left. lia.
    + destruct (parse_str_total fuel s2 I2) as (b & s3 & E3 & I3 & L3 & D3); [lia|].
      rewrite E3. cbn [bind]. eexists _, _. split; [reflexivity|]. split; [auto|].
      split; [lia|]. intros H.
      destruct D1 as [D|[->|[D D']]]; [left; lia| |congruence].
      destruct (P1 H) as [-> _]. destruct (D3 H) as [D|D]; [left; lia|right; auto].
  - intros acc s I L. cbn [array_loop].
    destruct (more [93; -1] s) as [go s1] eqn:M. apply more_spec in M; auto.
    destruct M as (I1 & R1 & S1 & A & B & C). destruct go.
    + assert (H : rest s <> []) by (apply B; cbn; auto). rewrite (S1 H) in *.
      specialize (A eq_refl H). cbn in A.
      destruct (IHv s I) as (v & s2 & E2 & I2 & L2 & D2); [lia|]. rewrite E2. cbn [bind].
      destruct (after_elem_total fuel 93 s2 I2) as (s3 & E3 & I3 & L3 & D3); [lia|].
      rewrite E3. cbn [bind].
      assert (L4 : (len s3 < len s)%nat).
      { destruct (D2 H) as [D|[-> D]]; [lia|]. apply D3; auto. }
      destruct (IHa (acc ++ [v]) s3 I3) as (l & s4 & E4 & I4 & L5); [lia|].
      exists l, s4. sp; auto; lia.
    + exists acc, s1. split; [auto|]. split; [auto|]. unfold len. rewrite R1. lia.
  - intros acc s I L. cbn [object_loop].
    destruct (more [125; -1] s) as [go s1] eqn:M. apply more_spec in M; auto.
    destruct M as (I1 & R1 & S1 & A & B & C). destruct go.
    + assert (H : rest s <> []) by (apply B; cbn; auto). rewrite (S1 H) in *.
      destruct (expect 34 s) as [q s2] eqn:X. apply expect_spec in X; auto.
      destruct X as (I2 & _ & L2). specialize (L2 H).
      assert (REC : forall a s3, inv s3 -> (len s3 < len s)%nat ->
        exists l s', object_loop fuel a s3 = Ok (l, s') /\ inv s' /\ (len s' <= len s)%nat).
      { intros a s3 I3 L3. destruct (IHo a s3 I3) as (l & s' & E & I' & L'); [lia|].
        exists l, s'. split; [auto|]. split; [auto|lia]. }
      destruct q; cbn [negb]; [|apply REC; auto].
      destruct (peek s2) as [p s3] eqn:P. apply peek_spec in P; auto.
      destruct P as (I3 & R3 & _).
      assert (L3 : len s3 = len s2) by (unfold len; rewrite R3; auto).
      destruct (p =? -1); [apply REC; auto; lia|].
      destruct (quoted_total fuel [] s3 I3) as (k & s4 & E4 & I4 & L4); [lia|].
      rewrite E4. cbn [bind].
      set (s5 := if failb s4 then s4 else _).
      assert (Q : inv s5 /\ (len s5 <= len s4)%nat).
      { subst s5. destruct (failb s4); [auto|].
        destruct (get s4) as [x s5] eqn:G. apply get_spec in G; auto.
        destruct G as (I5 & R5 & _). split; [auto|]. apply (tl_len _ _ R5). }
      destruct Q as [I5 L5].
      destruct (eat_ws_le fuel s5 I5) as (s6 & E6 & I6 & L6); [lia|]. rewrite E6. cbn [bind].
      destruct (get s6) as [c s7] eqn:G. apply get_spec in G; auto.
      destruct G as (I7 & R7 & _). destruct (tl_len _ _ R7) as [L7 _].
      destruct (negb (c =? 58)); [apply REC; auto; lia|].
      destruct (eat_ws_le fuel s7 I7) as (s8 & E8 & I8 & L8); [lia|]. rewrite E8. cbn [bind].
      destruct (IHv s8 I8) as (v & s9 & E9 & I9 & L9 & _); [lia|]. rewrite E9. cbn [bind].
      destruct (after_elem_total fuel 125 s9 I9) as (s10 & E10 & I10 & L10 & _); [lia|].
      rewrite E10. cbn [bind]. apply REC; auto; lia.
    + exists acc, s1. split; [auto|]. split; [auto|]. unfold len. rewrite R1. lia.
Qed.

(** ** More fuel changes nothing *)

Lemma eat_ws_mono : forall n s r, eat_ws n s = Ok r -> eat_ws (S n) s = Ok r.
Proof.
  induction n; intros s r H; [discriminate|]. cbn in H. rewrite <- H.
  change (eat_ws (S (S n)) s) with
    (if failb s then Ok s
     else let '(c, s) := peek s in
          if isspace c then eat_ws (S n) (snd (get s)) else Ok s).
  destruct (failb s); auto. destruct (peek s) as [c s1].
  destruct (isspace c); auto. rewrite H. auto.
Qed.

Lemma quoted_mono : forall n b s r, quoted n b s = Ok r -> quoted (S n) b s = Ok r.
Proof.
  induction n; intros b s r H; [discriminate|]. cbn [quoted] in H. rewrite <- H.
  remember (S n) as m. cbn [quoted].
  destruct (more [34; -1] s) as [go s1]. destruct go; auto.
  destruct (eat_char s1) as [o s2]. rewrite H. subst m. auto.
Qed.

Lemma unquoted_mono : forall n b s r, unquoted n b s = Ok r -> unquoted (S n) b s = Ok r.
Proof.
  induction n; intros b s r H; [discriminate|]. cbn [unquoted] in H. rewrite <- H.
  remember (S n) as m. cbn [unquoted].
  destruct (more [44; 125; 93; -1] s) as [go s1]. destruct go; auto.
  destruct (get s1) as [o s2]. rewrite H. subst m. auto.
Qed.

Lemma skip_to_mono : forall n cs s r, skip_to n cs s = Ok r -> skip_to (S n) cs s = Ok r.
Proof.
  induction n; intros cs s r H; [discriminate|]. cbn [skip_to] in H. rewrite <- H.
  remember (S n) as m. cbn [skip_to].
  destruct (more cs s) as [go s1]. destruct go; auto. rewrite H. subst m. auto.
Qed.

Lemma after_elem_mono n c s r : after_elem n c s = Ok r -> after_elem (S n) c s = Ok r.
Proof.
  unfold after_elem. destruct (skip_to n [44; c; -1] s) as [s1| |] eqn:E; try discriminate.
  rewrite (skip_to_mono _ _ _ _ E). cbn [bind]. apply eat_ws_mono.
Qed.

Lemma parse_str_mono n s r : parse_str n s = Ok r -> parse_str (S n) s = Ok r.
Proof.
  unfold parse_str. destruct (none_of [44; 93; 125] s) as [ok s1]. destruct ok; cbn [negb]; auto.
  destruct (get s1) as [c s2]. destruct (negb (wrap 8 c =? 34)).
  - apply unquoted_mono.
  - destruct (quoted n [] s2) as [[b s3]| |] eqn:E; try discriminate.
    rewrite (quoted_mono _ _ _ _ E). auto.
Qed.

Lemma parse_mono : forall n,
  (forall s r, parse_value n s = Ok r -> parse_value (S n) s = Ok r) /\
  (forall a s r, array_loop n a s = Ok r -> array_loop (S n) a s = Ok r) /\
  (forall a s r, object_loop n a s = Ok r -> object_loop (S n) a s = Ok r).
Proof.
  induction n as [|n (IHv & IHa & IHo)].
  { split; [|split]; intros; discriminate. }
  split; [|split].
  - intros s r H. remember (S n) as m. cbn [parse_value]. subst m. cbn [parse_value] in H.
    destruct (eat_ws n s) as [s1| |] eqn:E1; try discriminate.
    rewrite (eat_ws_mono _ _ _ E1). cbn [bind] in *.
    destruct (peek s1) as [c s2].
    destruct (c =? 123); [|destruct (c =? 91)].
    + destruct (eat_ws n s2) as [s3| |] eqn:E3; try discriminate.
      rewrite (eat_ws_mono _ _ _ E3). cbn [bind] in *.
      destruct (expect 123 s3) as [ok s4]. destruct ok; auto.
      destruct (eat_ws n s4) as [s5| |] eqn:E5; try discriminate.
      rewrite (eat_ws_mono _ _ _ E5). cbn [bind] in *.
      destruct (object_loop n [] s5) as [[l s6]| |] eqn:E6; try discriminate.
      rewrite (IHo _ _ _ E6). auto.
    + destruct (eat_ws n s2) as [s3| |] eqn:E3; try discriminate.
      rewrite (eat_ws_mono _ _ _ E3). cbn [bind] in *.
      destruct (expect 91 s3) as [ok s4]. destruct ok; auto.
      destruct (eat_ws n s4) as [s5| |] eqn:E5; try discriminate.
      rewrite (eat_ws_mono _ _ _ E5). cbn [bind] in *.
      destruct (array_loop n [] s5) as [[l s6]| |] eqn:E6; try discriminate.
      rewrite (IHa _ _ _ E6). auto.
    + destruct (parse_str n s2) as [[b s3]| |] eqn:E3; try discriminate.
      rewrite (parse_str_mono _ _ _ E3). auto.
  - intros a s r H. remember (S n) as m. cbn [array_loop]. subst m. cbn [array_loop] in H.
    destruct (more [93; -1] s) as [go s1]. destruct go; auto.
    destruct (parse_value n s1) as [[v s2]| |] eqn:E1; try discriminate.
    rewrite (IHv _ _ E1). cbn [bind] in *.
    destruct (after_elem n 93 s2) as [s3| |] eqn:E2; try discriminate.
    rewrite (after_elem_mono _ _ _ _ E2). cbn [bind] in *. auto.
  - intros a s r H. remember (S n) as m. cbn [object_loop]. subst m. cbn [object_loop] in H.
    destruct (more [125; -1] s) as [go s1]. destruct go; auto.
    destruct (expect 34 s1) as [q s2]. destruct q; cbn [negb] in *; auto.
    destruct (peek s2) as [p s3]. destruct (p =? -1); auto.
    destruct (quoted n [] s3) as [[k s4]| |] eqn:E1; try discriminate.
    rewrite (quoted_mono _ _ _ _ E1). cbn [bind] in *.
    destruct (eat_ws n (if failb s4 then s4 else snd (get s4))) as [s5| |] eqn:E2; try discriminate.
    rewrite (eat_ws_mono _ _ _ E2). cbn [bind] in *.
    destruct (get s5) as [c s6]. destruct (negb (c =? 58)); auto.
    destruct (eat_ws n s6) as [s7| |] eqn:E3; try discriminate.
    rewrite (eat_ws_mono _ _ _ E3). cbn [bind] in *.
    destruct (parse_value n s7) as [[v s8]| |] eqn:E4; try discriminate.
    rewrite (IHv _ _ E4). cbn [bind] in *.
    destruct (after_elem n 125 s8) as [s9| |] eqn:E5; try discriminate.
    rewrite (after_elem_mono _ _ _ _ E5). cbn [bind] in *. auto.
Qed.

Lemma ParseJSON_mono n m text v : (n <= m)%nat ->
  ParseJSON n text = Ok v -> ParseJSON m text = Ok v.
Proof.
  induction 1; auto. intros E. specialize (IHle E).
  unfold ParseJSON in *.
  destruct (parse_value m (Str text false false)) as [[w s]| |] eqn:P; try discriminate.
  destruct (parse_mono m) as (M & _ & _). rewrite (M _ _ P). auto.
Qed.

Lemma ParseJSON_total text : bytes text ->
  exists v, ParseJSON (2 * length text + 2) text = Ok v.
Proof.
  intros B. destruct (total_all (2 * length text + 2)) as (T & _ & _).
  destruct (T (Str text false false)) as (v & s' & E & _).
  { split; [discriminate|auto]. }
  { unfold len. cbn. lia. }
  exists v. unfold ParseJSON. rewrite E. auto.
Qed.

(* ------------------------------------------------------------------ *)
(** * Round trip *)

Definition mk (r : list Z) : stream := Str r false false.

(** With enough fuel, [f] gives [r]. *)
Definition ev {A} (f : nat -> res A) (r : A) : Prop :=
  exists n0, forall n, (n0 <= n)%nat -> f n = Ok r.

Lemma ev_const {A} (r : A) : ev (fun _ => Ok r) r.
Proof. exists O. auto. Qed.

Lemma ev_bind {A B} (f : nat -> res A) (g : nat -> A -> res B) a b :
  ev f a -> ev (fun n => g n a) b -> ev (fun n => bind (f n) (g n)) b.
Proof.
  intros [n1 H1] [n2 H2]. exists (Nat.max n1 n2). intros n H.
  rewrite H1 by lia. cbn. apply H2. lia.
Qed.

Lemma ev_succ {A} (f F : nat -> res A) r :
  (forall n, f (S n) = F n) -> ev F r -> ev f r.
Proof.
  intros E [n0 H]. exists (S n0). intros [|n] L; [lia|]. rewrite E. apply H. lia.
Qed.

Lemma ev_ext {A} (f g : nat -> res A) r : (forall n, f n = g n) -> ev g r -> ev f r.
Proof. intros E [n0 H]. exists n0. intros. rewrite E. auto. Qed.

Definition spaces (ws : list Z) : Prop := Forall (fun c => isspace c = true) ws.
Definition stop (c : Z) : Prop := c = 44 \/ c = 93 \/ c = 125.

Lemma peek_mk c r : peek (mk (c :: r)) = (c, mk (c :: r)).
Proof. reflexivity. Qed.
Lemma get_mk c r : get (mk (c :: r)) = (c, mk r).
Proof. reflexivity. Qed.

Lemma none_of_mk c r cs : none_of cs (mk (c :: r)) = (negb (existsb (Z.eqb c) cs), mk (c :: r)).
Proof.
  induction cs as [|x cs IH]; [reflexivity|]. cbn [none_of]. rewrite peek_mk. cbn [existsb].
  destruct (c =? x); cbn; auto.
Qed.

Lemma more_mk c r cs : more cs (mk (c :: r)) = (negb (existsb (Z.eqb c) cs), mk (c :: r)).
Proof. unfold more. cbn [failb mk]. apply none_of_mk. Qed.

Lemma eat_ws_ev ws c r : spaces ws -> isspace c = false ->
  ev (fun n => eat_ws n (mk (ws ++ c :: r))) (mk (c :: r)).
Proof.
  intros W C. induction W as [|x ws X W IH]; cbn [app].
  - eapply ev_succ. { intros n. cbn [eat_ws failb mk]. rewrite peek_mk, C. reflexivity. }
    apply ev_const.
  - eapply ev_succ. { intros n. cbn [eat_ws failb mk]. rewrite peek_mk, X, get_mk. cbn [snd]. reflexivity. }
    exact IH.
Qed.

Lemma eat_ws_ev0 c r : isspace c = false -> ev (fun n => eat_ws n (mk (c :: r))) (mk (c :: r)).
Proof. apply (eat_ws_ev []). constructor. Qed.

Lemma wrap8 c : 0 <= c < 256 -> wrap 8 c = c.
Proof. intros. unfold wrap. apply Z.mod_small. exact H. Qed.

(** ** Strings *)

Lemma quoted_key_ev k : bytes k -> ~ In 34 k -> ~ In 92 k -> forall buf r,
  ev (fun n => quoted n buf (mk (k ++ 34 :: r))) (buf ++ k, mk (34 :: r)).
Proof.
  induction k as [|c k IH]; intros B N1 N2 buf r.
  - rewrite app_nil_r. cbn [app]. eapply ev_succ.
    { intros n. cbn [quoted]. rewrite more_mk. cbn. reflexivity. }
    apply ev_const.
  - inversion B; subst. cbn [In] in *. cbn [app]. eapply ev_succ.
    { intros n. cbn [quoted]. rewrite more_mk. cbn [existsb].
      replace (c =? 34) with false by lia. replace (c =? -1) with false by lia.
      cbn [orb negb]. unfold eat_char. rewrite get_mk, wrap8 by auto.
      replace (c =? 92) with false by lia. cbn [negb]. reflexivity. }
    replace (buf ++ c :: k) with ((buf ++ [c]) ++ k) by (rewrite <- app_assoc; reflexivity).
    apply IH; auto.
Qed.

Lemma quoted_step_plain c buf r : 0 <= c < 256 -> c <> 34 -> c <> 92 -> forall n,
  quoted (S n) buf (mk (c :: r)) = quoted n (buf ++ [c]) (mk r).
Proof.
  intros B N1 N2 n. cbn [quoted]. rewrite more_mk. cbn [existsb].
  replace (c =? 34) with false by lia. replace (c =? -1) with false by lia.
  cbn [orb negb]. unfold eat_char. rewrite get_mk, wrap8 by auto.
  replace (c =? 92) with false by lia. reflexivity.
Qed.

Lemma escape_step c buf r : 0 <= c < 256 -> forall n,
  quoted (S n) buf (mk (escape_char c ++ r)) = quoted n (buf ++ [c]) (mk r).
Proof.
  intros B n. unfold escape_char.
  destruct (c =? 34) eqn:E1. { replace c with 34 by lia. reflexivity. }
  destruct (c =? 92) eqn:E2. { replace c with 92 by lia. reflexivity. }
  destruct (c =? 47) eqn:E3. { replace c with 47 by lia. reflexivity. }
  destruct (c =? 8) eqn:E4. { replace c with 8 by lia. reflexivity. }
  destruct (c =? 12) eqn:E5. { replace c with 12 by lia. reflexivity. }
  destruct (c =? 10) eqn:E6. { replace c with 10 by lia. reflexivity. }
  destruct (c =? 13) eqn:E7. { replace c with 13 by lia. reflexivity. }
  destruct (c =? 9) eqn:E8. { replace c with 9 by lia. reflexivity. }
  cbn [app]. apply quoted_step_plain; auto; lia.
Qed.

Lemma quoted_str_ev s : bytes s -> forall buf r,
  ev (fun n => quoted n buf (mk (flat_map escape_char s ++ 34 :: r))) (buf ++ s, mk (34 :: r)).
Proof.
  induction s as [|c s IH]; intros B buf r.
  - rewrite app_nil_r. cbn [flat_map app]. eapply ev_succ.
    { intros n. cbn [quoted]. rewrite more_mk. cbn. reflexivity. }
    apply ev_const.
  - inversion B; subst. cbn [flat_map]. rewrite <- app_assoc. eapply ev_succ.
    { intros n. apply escape_step. auto. }
    replace (buf ++ c :: s) with ((buf ++ [c]) ++ s) by (rewrite <- app_assoc; reflexivity).
    apply IH; auto.
Qed.

(** ** Unquoted text *)

Definition no_stop (l : list Z) : Prop :=
  Forall (fun c => 0 < c < 256 /\ c <> 44 /\ c <> 93 /\ c <> 125) l.

Lemma unquoted_ev l : no_stop l -> forall buf c r, stop c ->
  ev (fun n => unquoted n buf (mk (l ++ c :: r))) (buf ++ l, mk (c :: r)).
Proof.
  induction 1 as [|x l X L IH]; intros buf c r C.
  - rewrite app_nil_r. cbn [app]. eapply ev_succ.
    { intros n. cbn [unquoted]. rewrite more_mk.
      replace (existsb (Z.eqb c) [44; 125; 93; -1]) with true
        by (cbn; unfold stop in C; lia). reflexivity. }
    apply ev_const.
  - cbn [app]. eapply ev_succ.
    { intros n. cbn [unquoted]. rewrite more_mk.
      replace (existsb (Z.eqb x) [44; 125; 93; -1]) with false by (cbn; lia).
      cbn [negb]. rewrite get_mk, wrap8 by lia. reflexivity. }
    replace (buf ++ x :: l) with ((buf ++ [x]) ++ l) by (rewrite <- app_assoc; reflexivity).
    auto.
Qed.

(** At the end of the text. *)
Lemma unquoted_eof l : no_stop l -> forall buf, exists s,
  ev (fun n => unquoted n buf (mk l)) (buf ++ l, s).
Proof.
  induction 1 as [|x l X L IH]; intros buf.
  - rewrite app_nil_r. eexists. eapply ev_succ.
    { intros n. cbn. reflexivity. } apply ev_const.
  - destruct (IH (buf ++ [x])) as [s E]. exists s. eapply ev_succ.
    { intros n. cbn [unquoted]. rewrite more_mk.
      replace (existsb (Z.eqb x) [44; 125; 93; -1]) with false by (cbn; lia).
      cbn [negb]. rewrite get_mk, wrap8 by lia. reflexivity. }
    replace (buf ++ x :: l) with ((buf ++ [x]) ++ l) by (rewrite <- app_assoc; reflexivity).
    auto.
Qed.

(** ** Numbers *)

Lemma digits_app n : forall z acc, digits n z acc = digits n z [] ++ acc.
Proof.
  induction n; intros z acc; cbn [digits]; [auto|].
  destruct (z / 10 =? 0); [reflexivity|].
  rewrite IHn, (IHn _ [48 + z mod 10]), <- app_assoc. reflexivity.
Qed.

Lemma digits_digit n : forall z acc, Forall (fun c => isdigit c = true) acc ->
  Forall (fun c => isdigit c = true) (digits n z acc).
Proof.
  induction n; intros z acc A; cbn [digits]; [auto|].
  assert (D : isdigit (48 + z mod 10) = true).
  { unfold isdigit. pose proof (Z.mod_pos_bound z 10). lia. }
  destruct (z / 10 =? 0); [constructor; auto|]. apply IHn. constructor; auto.
Qed.

Lemma digits_value n : forall z acc, 0 <= z < 10 ^ Z.of_nat n ->
  dec_digits (digits n z acc) 0 = dec_digits acc z.
Proof.
  induction n; intros z acc Z0.
  - cbn in *. replace z with 0 by lia. auto.
  - cbn [digits]. rewrite Nat2Z.inj_succ, Z.pow_succ_r in Z0 by lia.
    assert (D : isdigit (48 + z mod 10) = true).
    { unfold isdigit. pose proof (Z.mod_pos_bound z 10). lia. }
    pose proof (Z.div_mod z 10).
    destruct (z / 10 =? 0) eqn:E.
    + cbn [dec_digits]. rewrite D. f_equal. lia.
    + rewrite IHn.
      * cbn [dec_digits]. rewrite D. f_equal. lia.
      * split; [apply Z.div_pos; lia|]. apply Z.div_lt_upper_bound; lia.
Qed.

Lemma digits_nonempty n z : digits (S n) z [] <> [].
Proof.
  cbn [digits]. destruct (z / 10 =? 0); [discriminate|].
  rewrite digits_app. destruct (digits n (z / 10) []); discriminate.
Qed.

Lemma spaces_dec ws : spaces ws -> forall a, dec_digits ws a = a.
Proof.
  intros W a. destruct W as [|c ws C W]; [reflexivity|]. cbn.
  replace (isdigit c) with false; auto. unfold isdigit, isspace in *. lia.
Qed.

Lemma c_str_id l : Forall (fun c => c <> 0) l -> c_str l = l.
Proof.
  induction 1; cbn; auto. replace (x =? 0) with false by lia. congruence.
Qed.

Lemma digit_not_space c : isdigit c = true -> isspace c = false.
Proof. unfold isdigit, isspace. lia. Qed.

Lemma spaces_nonzero ws : spaces ws -> Forall (fun c => c <> 0) ws.
Proof. intros W. eapply Forall_impl; [|exact W]. unfold isspace. cbn. lia. Qed.

Lemma existsb_false l : Forall (fun c => c <> 46) l -> existsb (Z.eqb 46) l = false.
Proof. induction 1; cbn [existsb]; auto. replace (46 =? x) with false by lia. auto. Qed.

Lemma show_int_shape z : - 2 ^ 63 <= z < 2 ^ 63 ->
  exists h t, show_int z = h :: t /\ (h = 45 \/ isdigit h = true) /\
    Forall (fun c => isdigit c = true) t.
Proof.
  intros R. unfold show_int. destruct (z <? 0).
  - exists 45, (digits 19 (- z) []). split; [auto|]. split; [auto|].
    apply digits_digit. constructor.
  - pose proof (digits_nonempty 18 z) as N. pose proof (digits_digit 19 z [] (Forall_nil _)) as D.
    destruct (digits 19 z []) as [|h t]; [congruence|].
    inversion D; subst. exists h, t. auto.
Qed.

Lemma strtoll_show z ws : - 2 ^ 63 <= z < 2 ^ 63 -> spaces ws ->
  strtoll (show_int z ++ ws) = z.
Proof.
  intros R W. unfold strtoll, show_int.
  assert (P : forall x, 0 <= x <= 2 ^ 63 -> dec_digits (digits 19 x [] ++ ws) 0 = x).
  { intros x X. pose proof (digits_value 19 x ws) as V. rewrite digits_app in V.
    rewrite V; [apply spaces_dec; auto|].
    replace (10 ^ Z.of_nat 19) with 10000000000000000000 by reflexivity. lia. }
  destruct (z <? 0) eqn:Z0.
  - cbn [app drop_space]. replace (isspace 45) with false by reflexivity.
    replace (45 =? 45) with true by reflexivity. rewrite P by lia. lia.
  - assert (Q : dec_digits (digits 19 z [] ++ ws) 0 = z) by (apply P; lia).
    pose proof (digits_nonempty 18 z) as N. pose proof (digits_digit 19 z [] (Forall_nil _)) as D.
    destruct (digits 19 z []) as [|h t]; [congruence|]. pose proof (Forall_inv D) as Hh. cbv beta in Hh.
    cbn [app drop_space]. rewrite digit_not_space by auto. cbn [app] in Q.
    replace (h =? 45) with false by (unfold isdigit in *; lia).
    replace (h =? 43) with false by (unfold isdigit in *; lia).
    rewrite Q. lia.
Qed.

Lemma number_of_int z ws : - 2 ^ 63 <= z < 2 ^ 63 -> spaces ws ->
  number_of (show_int z ++ ws) = JInt z.
Proof.
  intros R W. unfold number_of.
  destruct (show_int_shape z R) as (h & t & E & H & T).
  rewrite c_str_id.
  - rewrite existsb_false; [rewrite strtoll_show; auto|]. rewrite E. cbn [app].
    constructor; [unfold isdigit in H; lia|]. apply Forall_app. split.
    + eapply Forall_impl; [|exact T]. unfold isdigit. cbn. lia.
    + eapply Forall_impl; [|exact W]. unfold isspace. cbn. lia.
  - rewrite E. cbn [app]. constructor; [unfold isdigit in H; lia|]. apply Forall_app. split.
    + eapply Forall_impl; [|exact T]. unfold isdigit. cbn. lia.
    + apply spaces_nonzero; auto.
Qed.

(** The texts of doubles that have a fractional part. *)
Definition decimal (t : list Z) : Prop :=
  Forall (fun c => float_char c = true) t /\ In 46 t /\
  exists h r, t = h :: r /\ number_start h = true.

Lemma strtod_app t ws : Forall (fun c => float_char c = true) t -> spaces ws ->
  strtod (t ++ ws) = t.
Proof.
  induction 1 as [|c t C T IH]; intros W; cbn.
  - destruct W as [|c ws C W]; auto. cbn. replace (float_char c) with false; auto.
    unfold float_char, isdigit, isspace in *. lia.
  - rewrite C. f_equal. auto.
Qed.

Lemma number_of_double t ws : decimal t -> spaces ws -> number_of (t ++ ws) = JDouble t.
Proof.
  intros (F & D & _) W. unfold number_of. rewrite c_str_id.
  - replace (existsb (Z.eqb 46) (t ++ ws)) with true. { rewrite strtod_app; auto. }
    symmetry. apply existsb_exists. exists 46. split; [|reflexivity]. apply in_app_iff. auto.
  - apply Forall_app. split; [|apply spaces_nonzero; auto].
    eapply Forall_impl; [|exact F]. unfold float_char, isdigit. cbn. lia.
Qed.
