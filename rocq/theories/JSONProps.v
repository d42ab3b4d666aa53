(** * C67, C68: JSON

    C67: what [WriteJSON] writes, [ParseJSON] reads back as the same value.
    C68: [ParseJSON] ends on every sequence of bytes. *)
From Coq Require Import ZArith List Bool Lia ZifyBool ZifyNat.
From Verif Require Import Common BitUtil UtfSpec MiscBitProofs JSON JSONProofs.
Import ListNotations.
Local Open Scope Z_scope.

(* ------------------------------------------------------------------ *)
(** * Specification *)

(** A key that can be stored as a C string and needs no escaping. *)
Definition plain_key (k : list Z) : Prop :=
  Forall (fun c => 0 < c < 256 /\ c <> 34 /\ c <> 92) k.

(** Values without an empty value inside, whose strings are any bytes, whose
    integers are 64-bit integers, whose doubles print with a decimal point and
    whose keys are plain. *)
Fixpoint plain (v : jval) : Prop :=
  match v with
  | JEmpty => False
  | JStr s => bytes s
  | JDouble t => decimal t
  | JInt z => - 2 ^ 63 <= z < 2 ^ 63
  | JBool _ => True
  | JArr l => (fix all l := match l with [] => True | x :: l => plain x /\ all l end) l
  | JObj l => (fix all l := match l with
                            | [] => True
                            | (k, x) :: l => plain_key k /\ plain x /\ all l
                            end) l
  end.

Definition is_bool (v : jval) : Prop := match v with JBool _ => True | _ => False end.

(** No object, at any depth, has a boolean as its last value. *)
Fixpoint no_last_bool (v : jval) : Prop :=
  match v with
  | JArr l => (fix all l := match l with [] => True | x :: l => no_last_bool x /\ all l end) l
  | JObj l => (fix all l := match l with
                            | [] => True
                            | (k, x) :: l =>
                                no_last_bool x /\ (l = [] -> ~ is_bool x) /\ all l
                            end) l
  | _ => True
  end.

(* ------------------------------------------------------------------ *)
(** * The text without the blanks in front *)

(** The blanks in front of a value that has no key. *)
Definition lead (lvl : nat) (v : jval) : list Z :=
  match v with
  | JObj _ => if is_pretty lvl then cNL :: tabs lvl else []
  | _ => []
  end.

Definition endws (lvl : nat) : list Z := if is_pretty lvl then cNL :: tabs lvl else [].

Fixpoint core (lvl : nat) (v : jval) {struct v} : list Z :=
  match v with
  | JEmpty => []
  | JStr s => show_str s
  | JDouble t => t
  | JInt z => show_int z
  | JBool b => show_bool b
  | JArr l =>
      cLBRACK ::
      (fix elems l fl := match l with
                         | [] => []
                         | x :: l => write_comma fl ++ lead (deeper lvl) x
                                     ++ core (deeper lvl) x ++ elems l true
                         end) l false
      ++ [cRBRACK]
  | JObj l =>
      cLBRACE ::
      (fix members l fl := match l with
                           | [] => []
                           | (k, x) :: l => write_comma fl ++ write_id (Some k) (deeper lvl)
                                            ++ core (deeper lvl) x ++ members l true
                           end) l false
      ++ endws lvl ++ [cRBRACE]
  end.

Fixpoint elems (lvl : nat) (l : list jval) (fl : bool) : list Z :=
  match l with
  | [] => []
  | x :: l => write_comma fl ++ lead lvl x ++ core lvl x ++ elems lvl l true
  end.

Fixpoint members (lvl : nat) (l : list (list Z * jval)) (fl : bool) : list Z :=
  match l with
  | [] => []
  | (k, x) :: l => write_comma fl ++ write_id (Some k) lvl ++ core lvl x ++ members lvl l true
  end.

Lemma core_arr lvl l : core lvl (JArr l) = 91 :: elems (deeper lvl) l false ++ [93].
Proof.
  cbn [core]. f_equal. f_equal. generalize false. induction l; intros b; cbn [elems]; auto.
  rewrite <- IHl. reflexivity.
Qed.

Lemma core_obj lvl l :
  core lvl (JObj l) = 123 :: members (deeper lvl) l false ++ endws lvl ++ [125].
Proof.
  cbn [core]. f_equal. f_equal. generalize false. induction l as [|[k x] l IHl]; intros b; cbn [members]; auto.
  rewrite <- IHl. reflexivity.
Qed.

(** Induction over values. *)
Lemma jval_ind2 (P : jval -> Prop) :
  P JEmpty -> (forall s, P (JStr s)) -> (forall t, P (JDouble t)) -> (forall z, P (JInt z)) ->
  (forall b, P (JBool b)) ->
  (forall l, Forall P l -> P (JArr l)) ->
  (forall l, Forall (fun kx => P (snd kx)) l -> P (JObj l)) ->
  forall v, P v.
Proof.
  intros H1 H2 H3 H4 H5 H6 H7. fix IH 1. intros [|s|t|z|b|l|l];
    [apply H1|apply H2|apply H3|apply H4|apply H5| | ].
  - apply H6. induction l; constructor; [apply IH|auto].
  - apply H7. induction l as [|[k x] l IHl]; constructor; [apply IH|auto].
Qed.

Lemma plain_arr l : plain (JArr l) <-> Forall plain l.
Proof.
  cbn [plain]. induction l as [|x l IH]; split; intros H; auto.
  - constructor; [apply H|]. apply IH. apply H.
  - inversion H; subst. split; auto. apply IH; auto.
Qed.

Lemma plain_obj l :
  plain (JObj l) <-> Forall (fun kx => plain_key (fst kx) /\ plain (snd kx)) l.
Proof.
  cbn [plain]. induction l as [|[k x] l IH]; split; intros H; auto.
  - destruct H as (A & B & C). constructor; [auto|]. apply IH. auto.
  - inversion H; subst. cbn in *. split; [tauto|]. split; [tauto|]. apply IH; auto.
Qed.

Lemma write_core v : plain v -> forall id lvl fl,
  write v id lvl fl =
  (write_comma fl ++ write_id id lvl
   ++ (match id with None => lead lvl v | Some _ => [] end) ++ core lvl v, true).
Proof.
  induction v as [|s|t|z|b|l IH|l IH] using jval_ind2; intros PL id lvl fl.
  - destruct PL.
  - cbn. destruct id; rewrite <- ?app_assoc; reflexivity.
  - cbn. destruct id; rewrite <- ?app_assoc; reflexivity.
  - cbn. destruct id; rewrite <- ?app_assoc; reflexivity.
  - cbn. destruct id; rewrite <- ?app_assoc; reflexivity.
  - rewrite core_arr. cbn [write]. apply plain_arr in PL.
    set (f := fix elems l fl := match l with [] => [] | x :: l0 => _ end).
    assert (E : forall b, f l b = elems (deeper lvl) l b).
    { clear - IH PL. induction IH as [|x l X L IHl]; intros b; [reflexivity|].
      inversion PL; subst. cbn. rewrite X by auto. cbn. fold f. rewrite IHl by auto.
      rewrite <- ?app_assoc. reflexivity. }
    rewrite E. f_equal. rewrite <- ?app_assoc. destruct id; reflexivity.
  - rewrite core_obj. cbn [write]. apply plain_obj in PL.
    set (f := fix members l fl := match l with [] => [] | (k, x) :: l0 => _ end).
    assert (E : forall b, f l b = members (deeper lvl) l b).
    { clear - IH PL. induction IH as [|[k x] l X L IHl]; intros b; [reflexivity|].
      inversion PL; subst. cbn [fst snd] in *. cbn [f members].
      rewrite X by tauto. fold f. rewrite IHl by auto.
      rewrite <- ?app_assoc. reflexivity. }
    rewrite E. f_equal. unfold endws. destruct id; cbn [lead write_id app].
    + reflexivity.
    + destruct (is_pretty lvl); rewrite <- ?app_assoc; reflexivity.
Qed.

(* ------------------------------------------------------------------ *)
(** * Reading back *)

(** The first character of a value's text. *)
Definition starts (l : list Z) : Prop :=
  exists h t, l = h :: t /\ isspace h = false /\ h <> 44 /\ h <> 93 /\ h <> 125 /\ 0 < h < 256.

Lemma core_starts v lvl : plain v -> starts (core lvl v).
Proof.
  destruct v as [|s|t|z|b|l|l]; intros PL.
  - destruct PL.
  - cbn [core]. unfold show_str. exists 34. eexists. split; [reflexivity|]. cbn. lia.
  - destruct PL as (_ & _ & h & r & -> & H). exists h, r. cbn [core]. split; [auto|].
    unfold number_start, isdigit, isspace in *. lia.
  - cbn [core]. destruct (show_int_shape z PL) as (h & t & -> & H & _). exists h, t.
    split; [auto|]. unfold isdigit, isspace in *. lia.
  - cbn [core]. destruct b; eexists _, _; (split; [reflexivity|]); cbn; lia.
  - rewrite core_arr. eexists _, _. split; [reflexivity|]. cbn. lia.
  - rewrite core_obj. eexists _, _. split; [reflexivity|]. cbn. lia.
Qed.

Definition compound (v : jval) : Prop :=
  match v with JStr _ | JArr _ | JObj _ => True | _ => False end.

(** Values written without quotes or brackets: numbers and booleans. *)
Lemma scalar_shape v : plain v -> ~ compound v -> forall lvl,
  exists h t, core lvl v = h :: t /\ no_stop (h :: t) /\ isspace h = false /\
    h <> 34 /\ h <> 91 /\ h <> 123 /\
    forall ws, spaces ws -> (is_bool v -> ws = []) ->
      (if number_start h then number_of (h :: t ++ ws) else word_of (h :: t ++ ws)) = v.
Proof.
  intros PL NC lvl. destruct v as [|s|t|z|b|l|l]; cbn [compound] in NC; try tauto.
  - destruct PL as (F & D & h & r & -> & H). exists h, r. cbn [core].
    split; [auto|]. split.
    { eapply Forall_impl; [|exact F]. unfold float_char, isdigit. cbn. lia. }
    split; [unfold number_start, isdigit, isspace in *; lia|].
    split; [unfold number_start, isdigit, isspace in *; lia|].
    split; [unfold number_start, isdigit, isspace in *; lia|].
    split; [unfold number_start, isdigit, isspace in *; lia|].
    intros ws W _. rewrite H. apply (number_of_double (h :: r) ws); auto.
    split; [auto|]. split; [auto|]. eauto.
  - destruct (show_int_shape z PL) as (h & t & E & H & T). exists h, t. cbn [core].
    split; [auto|]. split.
    { constructor; [unfold isdigit in *; lia|].
      eapply Forall_impl; [|exact T]. unfold isdigit. cbn. lia. }
    split; [unfold isdigit, isspace in *; lia|].
    split; [unfold isdigit in *; lia|]. split; [unfold isdigit in *; lia|].
    split; [unfold isdigit in *; lia|].
    intros ws W _. replace (number_start h) with true
      by (unfold number_start, isdigit in *; lia).
    change (h :: t ++ ws) with ((h :: t) ++ ws). rewrite <- E. apply number_of_int; auto.
  - cbn [core]. destruct b; eexists _, _; (split; [reflexivity|]); cbn [number_start];
      (split; [unfold no_stop; repeat constructor; lia|]); (repeat (split; [first [reflexivity|lia]|]));
      intros ws W B; rewrite B by exact Logic.I; reflexivity.
Qed.

Lemma parse_str_unquoted_ev h t r v : no_stop (h :: t) -> h <> 34 ->
  forall s', ev (fun n => unquoted n [h] (mk (t ++ r))) (v, s') ->
  ev (fun n => parse_str n (mk (h :: t ++ r))) (v, s').
Proof.
  intros N H s' E. inversion N; subst. unfold parse_str. rewrite none_of_mk.
  replace (existsb (Z.eqb h) [44; 93; 125]) with false by (cbn; lia). cbn [negb].
  rewrite get_mk, wrap8 by lia. replace (h =? 34) with false by lia. cbn [negb]. exact E.
Qed.

(** A number or boolean followed by blanks and a delimiter. *)
Lemma scalar_ev v lvl ws c r : plain v -> ~ compound v -> spaces ws -> stop c ->
  (is_bool v -> ws = []) ->
  ev (fun n => parse_value n (mk (core lvl v ++ ws ++ c :: r))) (v, mk (c :: r)).
Proof.
  intros PL NC W C B.
  destruct (scalar_shape v PL NC lvl) as (h & t & -> & N & S1 & N34 & N91 & N123 & V).
  cbn [app]. eapply ev_succ. { intros n. cbn [parse_value]. reflexivity. }
  eapply ev_bind; [apply eat_ws_ev0; auto|]. cbn beta. rewrite peek_mk.
  replace (h =? 123) with false by lia. replace (h =? 91) with false by lia.
  replace (h =? 34) with false by lia.
  assert (E : ev (fun n => parse_str n (mk (h :: t ++ ws ++ c :: r)))
                 (h :: t ++ ws, mk (c :: r))).
  { apply parse_str_unquoted_ev; auto. rewrite app_assoc.
    apply (unquoted_ev (t ++ ws)) with (buf := [h]); auto.
    inversion N; subst. apply Forall_app. split; auto.
    eapply Forall_impl; [|exact W]. unfold isspace. cbn. lia. }
  eapply ev_bind; [exact E|]. cbn beta iota. rewrite (V ws W B). apply ev_const.
Qed.

(** The same at the end of the text. *)
Lemma scalar_eof_ev v lvl : plain v -> ~ compound v ->
  exists s, ev (fun n => parse_value n (mk (core lvl v))) (v, s).
Proof.
  intros PL NC.
  destruct (scalar_shape v PL NC lvl) as (h & t & -> & N & S1 & N34 & N91 & N123 & V).
  assert (N' : no_stop t) by (inversion N; auto).
  destruct (unquoted_eof t N' [h]) as [s E]. exists s.
  eapply ev_succ. { intros n. cbn [parse_value]. reflexivity. }
  eapply ev_bind; [apply eat_ws_ev0; auto|]. cbn beta. rewrite peek_mk.
  replace (h =? 123) with false by lia. replace (h =? 91) with false by lia.
  replace (h =? 34) with false by lia.
  eapply ev_bind.
  { rewrite <- (app_nil_r t). apply parse_str_unquoted_ev; auto. rewrite app_nil_r. exact E. }
  cbn beta iota. specialize (V [] (Forall_nil _) (fun _ => eq_refl)).
  rewrite app_nil_r in V. cbn [app]. rewrite V. apply ev_const.
Qed.

(** What follows an element. *)
Lemma skip_to_ev close ws c r : spaces ws -> close <> 32 -> (close < 9 \/ 13 < close) ->
  (c = 44 \/ c = close) ->
  ev (fun n => skip_to n [44; close; -1] (mk (ws ++ c :: r))) (mk (c :: r)).
Proof.
  intros W C1 C2 C. induction W as [|x ws X W IH]; cbn [app].
  - eapply ev_succ.
    { intros n. cbn [skip_to]. rewrite more_mk.
      replace (existsb (Z.eqb c) [44; close; -1]) with true by (cbn; lia). reflexivity. }
    apply ev_const.
  - eapply ev_succ.
    { intros n. cbn [skip_to]. rewrite more_mk.
      replace (existsb (Z.eqb x) [44; close; -1]) with false
        by (cbn; unfold isspace in X; lia).
      cbn [negb]. rewrite get_mk. cbn [snd]. reflexivity. }
    exact IH.
Qed.

Lemma after_elem_comma close ws ws2 c r : spaces ws -> spaces ws2 -> close <> 32 ->
  (close < 9 \/ 13 < close) -> isspace c = false ->
  ev (fun n => after_elem n close (mk (ws ++ 44 :: ws2 ++ c :: r))) (mk (c :: r)).
Proof.
  intros W W2 C1 C2 C. unfold after_elem.
  eapply ev_bind; [apply skip_to_ev; auto|]. cbn beta zeta. cbn [failb mk].
  rewrite peek_mk. replace (44 =? 44) with true by reflexivity. rewrite get_mk. cbn [snd].
  apply eat_ws_ev; auto.
Qed.

Lemma after_elem_close close ws r : spaces ws -> close <> 32 -> close <> 44 ->
  (close < 9 \/ 13 < close) ->
  ev (fun n => after_elem n close (mk (ws ++ close :: r))) (mk (close :: r)).
Proof.
  intros W C1 C2 C3. unfold after_elem.
  eapply ev_bind; [apply skip_to_ev; auto|]. cbn beta zeta. cbn [failb mk].
  rewrite peek_mk. replace (close =? 44) with false by lia.
  apply eat_ws_ev0. unfold isspace. lia.
Qed.

Lemma spaces_indent lvl : spaces (cNL :: tabs lvl).
Proof.
  constructor; [reflexivity|]. apply Forall_forall. intros x X.
  apply repeat_spec in X. subst x. reflexivity.
Qed.

Lemma spaces_endws lvl : spaces (endws lvl).
Proof. unfold endws. destruct (is_pretty lvl); [apply spaces_indent|constructor]. Qed.

Lemma spaces_lead lvl v : spaces (lead lvl v).
Proof.
  destruct v; try apply Forall_nil. cbn.
  destruct (is_pretty lvl); [apply spaces_indent|constructor].
Qed.

(** What is to be shown for a value. *)
Definition reads (v : jval) (lvl : nat) : Prop :=
  compound v -> forall r,
  ev (fun n => parse_value n (mk (core lvl v ++ r))) (v, mk r).

Lemma reads_elem v lvl ws c r : plain v -> reads v lvl -> spaces ws -> stop c ->
  (is_bool v -> ws = []) ->
  exists ws', spaces ws' /\
  ev (fun n => parse_value n (mk (core lvl v ++ ws ++ c :: r))) (v, mk (ws' ++ c :: r)).
Proof.
  intros PL RD W C B.
  assert (D : compound v \/ ~ compound v) by (destruct v; cbn; tauto).
  destruct D as [D|D].
  - exists ws. split; [auto|]. apply RD; auto.
  - exists []. split; [constructor|]. apply scalar_ev; auto.
Qed.

(** ** Arrays *)

Definition elems0 (lvl : nat) (l : list jval) : list Z :=
  match l with
  | [] => []
  | x :: l => core lvl x ++ elems lvl l true
  end.

Lemma array_loop_ev lvl r : forall l acc, Forall plain l -> Forall (fun x => reads x lvl) l ->
  ev (fun n => array_loop n acc (mk (elems0 lvl l ++ 93 :: r))) (acc ++ l, mk (93 :: r)).
Proof.
  induction l as [|x l IH]; intros acc PL RD.
  - rewrite app_nil_r. cbn [elems0 app]. eapply ev_succ.
    { intros n. cbn [array_loop]. rewrite more_mk. cbn [existsb]. reflexivity. }
    apply ev_const.
  - inversion PL; subst. inversion RD; subst. cbn [elems0]. rewrite <- app_assoc.
    destruct (core_starts x lvl ltac:(auto)) as (h & t & E & S1 & S2 & S3 & S4 & S5).
    eapply ev_succ.
    { intros n. cbn [array_loop]. rewrite E. cbn [app]. rewrite more_mk.
      replace (existsb (Z.eqb h) [93; -1]) with false by (cbn; lia). cbn [negb].
      change (h :: t ++ elems lvl l true ++ 93 :: r)
        with ((h :: t) ++ elems lvl l true ++ 93 :: r). rewrite <- E. reflexivity. }
    replace (acc ++ x :: l) with ((acc ++ [x]) ++ l) by (rewrite <- app_assoc; reflexivity).
    destruct l as [|y l].
    + cbn [elems app].
      destruct (reads_elem x lvl [] 93 r) as (ws' & W' & EV); auto;
        [constructor|unfold stop; auto|].
      eapply ev_bind; [exact EV|]. cbn beta iota.
      eapply ev_bind; [apply after_elem_close; auto; lia|]. cbn beta iota.
      apply (IH (acc ++ [x])); constructor.
    + cbn [elems write_comma app].
      destruct (reads_elem x lvl [] 44
                  ((lead lvl y ++ core lvl y ++ elems lvl l true) ++ 93 :: r))
        as (ws' & W' & EV); auto; [constructor|unfold stop; auto|].
      eapply ev_bind; [exact EV|]. cbn beta iota.
      specialize (IH (acc ++ [x]) ltac:(auto) ltac:(auto)).
      cbn [elems0] in IH. rewrite <- app_assoc in IH.
      assert (PLy : plain y) by (inversion PL; subst; match goal with H : Forall plain (y :: l) |- _ => inversion H; auto end).
      destruct (core_starts y lvl PLy) as (h2 & t2 & E2 & T1 & _).
      rewrite <- !app_assoc. rewrite E2 in IH |- *. cbn [app] in IH |- *.
      eapply ev_bind; [apply after_elem_comma; auto; [apply spaces_lead|lia|lia]|].
      cbn beta iota. rewrite <- (app_assoc acc [x]) in IH. exact IH.
Qed.

(** ** Objects *)

Definition member (lvl : nat) (k : list Z) (x : jval) : list Z :=
  34 :: k ++ [34; 58; 32] ++ core lvl x.

Definition members0 (lvl : nat) (l : list (list Z * jval)) (e : list Z) : list Z :=
  match l with
  | [] => []
  | (k, x) :: l => member lvl k x ++ members lvl l true ++ e
  end.

Lemma plain_key_facts k : plain_key k ->
  c_str k = k /\ bytes k /\ ~ In 34 k /\ ~ In 92 k.
Proof.
  unfold plain_key. intros K. split.
  { apply c_str_id. eapply Forall_impl; [|exact K]. cbn. lia. }
  split. { eapply Forall_impl; [|exact K]. cbn. lia. }
  rewrite Forall_forall in K. split; intros H; apply K in H; lia.
Qed.

Lemma object_step lvl k x r s2 s3 acc l sfin :
  plain_key k -> starts (core lvl x) ->
  ev (fun n => parse_value n (mk (core lvl x ++ r))) (x, s2) ->
  ev (fun n => after_elem n 125 s2) s3 ->
  ev (fun n => object_loop n (acc ++ [(k, x)]) s3) (l, sfin) ->
  ev (fun n => object_loop n acc (mk (member lvl k x ++ r))) (l, sfin).
Proof.
  intros K ST E1 E2 E3. destruct (plain_key_facts k K) as (KC & KB & K34 & K92).
  destruct ST as (h & t & EC & S1 & S2 & S3 & S4 & S5).
  unfold member. cbn [app].
  replace ((k ++ 34 :: 58 :: 32 :: core lvl x) ++ r)
    with (k ++ 34 :: 58 :: 32 :: (core lvl x ++ r))
    by (rewrite <- app_assoc; reflexivity).
  eapply ev_succ.
  { intros n. cbn [object_loop]. rewrite more_mk. cbn [existsb]. cbn [Z.eqb Pos.eqb orb negb].
    unfold expect. cbn [failb mk]. rewrite get_mk. cbn [Z.eqb Pos.eqb negb].
    assert (PK : exists c r', k ++ 34 :: 58 :: 32 :: (core lvl x ++ r) = c :: r' /\ c <> -1).
    { destruct k as [|c k]; cbn [app]; [eexists _, _; split; [reflexivity|lia]|].
      inversion KB; subst. eexists _, _; split; [reflexivity|lia]. }
    destruct PK as (c & r' & PE & PN). rewrite PE, peek_mk.
    replace (c =? -1) with false by lia. rewrite <- PE. reflexivity. }
  eapply ev_bind; [apply (quoted_key_ev k KB K34 K92 [])|]. cbn beta iota zeta.
  cbn [failb mk]. rewrite get_mk. cbn [snd].
  eapply ev_bind; [apply eat_ws_ev0; reflexivity|]. cbn beta iota.
  rewrite get_mk. cbn [Z.eqb Pos.eqb negb].
  rewrite EC in E1 |- *. cbn [app] in E1 |- *.
  eapply ev_bind.
  { apply (eat_ws_ev [32] h); auto. constructor; [reflexivity|constructor]. }
  cbn beta iota. eapply ev_bind; [exact E1|]. cbn beta iota.
  eapply ev_bind; [exact E2|]. cbn beta iota. rewrite KC. exact E3.
Qed.

Lemma write_id_key lvl k : plain_key k ->
  exists ws, spaces ws /\ write_id (Some k) lvl = ws ++ 34 :: k ++ [34; 58; 32].
Proof.
  intros K. destruct (plain_key_facts k K) as (KC & _). cbn [write_id]. rewrite KC.
  exists (if is_pretty lvl then cNL :: tabs lvl else []). split; [|reflexivity].
  destruct (is_pretty lvl); [apply spaces_indent|constructor].
Qed.

Definition last_ok (e : list Z) (l : list (list Z * jval)) : Prop :=
  e = [] \/ (forall k x, last l ([], JEmpty) = (k, x) -> ~ is_bool x).

Lemma object_loop_ev lvl e r : spaces e -> forall l acc,
  Forall (fun kx => plain_key (fst kx) /\ plain (snd kx)) l ->
  Forall (fun kx => reads (snd kx) lvl) l ->
  last_ok e l ->
  ev (fun n => object_loop n acc (mk (members0 lvl l e ++ 125 :: r))) (acc ++ l, mk (125 :: r)).
Proof.
  intros W. induction l as [|[k x] l IH]; intros acc PL RD LO.
  - rewrite app_nil_r. cbn [members0 app]. eapply ev_succ.
    { intros n. cbn [object_loop]. rewrite more_mk. cbn [existsb]. reflexivity. }
    apply ev_const.
  - inversion PL as [|? ? [PK PX] PL']; subst. inversion RD as [|? ? RX RD']; subst.
    cbn [fst snd] in *. cbn [members0].
    replace (acc ++ (k, x) :: l) with ((acc ++ [(k, x)]) ++ l)
      by (rewrite <- app_assoc; reflexivity).
    destruct l as [|[k2 y] l].
    + cbn [members app]. rewrite <- app_assoc.
      destruct (reads_elem x lvl e 125 r) as (ws' & W' & EV); auto.
      { unfold stop. auto. }
      { intros B. destruct LO as [|LO]; [auto|]. exfalso. eapply LO; [reflexivity|auto]. }
      eapply object_step; [auto|apply core_starts; auto|exact EV| | ].
      { apply after_elem_close; auto; lia. }
      apply (IH (acc ++ [(k, x)])); [constructor|constructor|].
      right. intros k0 x0 H. cbn in H. inversion H. subst. cbn. tauto.
    + assert (LO' : last_ok e ((k2, y) :: l)).
      { destruct LO as [LO|LO]; [left; auto|right]. exact LO. }
      specialize (IH (acc ++ [(k, x)]) PL' RD' LO'). cbn [members0] in IH.
      inversion PL' as [|? ? [PK2 PY] PL'']; subst. cbn [fst snd] in *.
      destruct (write_id_key lvl k2 PK2) as (ws2 & W2 & E2).
      cbn [members write_comma]. rewrite E2, <- !app_assoc. cbn [app].
      rewrite <- !app_assoc. cbn [app].
      unfold member in IH at 1. cbn [app] in IH. rewrite <- !app_assoc in IH. cbn [app] in IH.
      destruct (reads_elem x lvl [] 44
        (ws2 ++ 34 :: k2 ++ 34 :: 58 :: 32 :: core lvl y ++ members lvl l true ++ e ++ 125 :: r))
        as (ws' & W' & EV); auto; [constructor|unfold stop; auto|].
      eapply object_step; [auto|apply core_starts; auto|exact EV| |exact IH].
      apply after_elem_comma; auto; lia.
Qed.

(** ** All values *)

Lemma no_last_bool_arr l : no_last_bool (JArr l) -> Forall no_last_bool l.
Proof.
  cbn [no_last_bool]. induction l as [|x l IH]; intros H; constructor; [apply H|].
  apply IH. apply H.
Qed.

Lemma no_last_bool_obj l : no_last_bool (JObj l) ->
  Forall (fun kx => no_last_bool (snd kx)) l /\
  (l <> [] -> ~ is_bool (snd (last l ([], JEmpty)))).
Proof.
  cbn [no_last_bool]. induction l as [|[k x] l IH]; intros H.
  - split; [constructor|congruence].
  - destruct H as (A & B & C). specialize (IH C). destruct IH as [IH1 IH2].
    split; [constructor; auto|]. intros _. destruct l as [|y l].
    + cbn. apply B. reflexivity.
    + change (last ((k, x) :: y :: l) ([], JEmpty)) with (last (y :: l) ([], JEmpty)).
      apply IH2. discriminate.
Qed.

Lemma reads_all v : plain v -> forall lvl, (lvl = 0%nat \/ no_last_bool v) -> reads v lvl.
Proof.
  induction v as [|s|t|z|b|l IH|l IH] using jval_ind2; intros PL lvl LV C r; try destruct C.
  - cbn [core]. unfold show_str. cbn [app].
    eapply ev_succ. { intros n. cbn [parse_value]. reflexivity. }
    eapply ev_bind; [apply eat_ws_ev0; reflexivity|]. cbn beta. rewrite peek_mk.
    cbn [Z.eqb Pos.eqb cQUOTE].
    assert (E : ev (fun n => parse_str n (mk (34 :: (flat_map escape_char s ++ [34]) ++ r)))
                   (s, mk r)).
    { unfold parse_str. rewrite none_of_mk. cbn [existsb Z.eqb Pos.eqb orb negb].
      rewrite get_mk. change (wrap 8 34) with 34. cbn [Z.eqb Pos.eqb negb].
      rewrite <- app_assoc. cbn [app].
      eapply ev_bind; [apply (quoted_str_ev s PL [])|]. cbn beta iota. rewrite get_mk.
      apply ev_const. }
    eapply ev_bind; [exact E|]. apply ev_const.
  - rewrite core_arr. cbn [app]. rewrite <- app_assoc. cbn [app].
    eapply ev_succ. { intros n. cbn [parse_value]. reflexivity. }
    eapply ev_bind; [apply eat_ws_ev0; reflexivity|]. cbn beta. rewrite peek_mk.
    cbn [Z.eqb Pos.eqb].
    eapply ev_bind; [apply eat_ws_ev0; reflexivity|]. cbn beta.
    unfold expect. cbn [failb mk]. rewrite get_mk. cbn [Z.eqb Pos.eqb].
    apply plain_arr in PL.
    assert (LD : deeper lvl = 0%nat \/ Forall no_last_bool l).
    { destruct LV as [-> |LV]; [left; reflexivity|right; apply no_last_bool_arr; auto]. }
    assert (RD : Forall (fun x => reads x (deeper lvl)) l).
    { rewrite Forall_forall in *. intros x X. apply IH; auto.
      destruct LD as [LD|LD]; auto. }
    pose proof (array_loop_ev (deeper lvl) r l [] PL RD) as AL.
    eapply ev_bind with (a := mk (elems0 (deeper lvl) l ++ 93 :: r)).
    + destruct l as [|x l]; cbn [elems elems0 write_comma app].
      * apply eat_ws_ev0. reflexivity.
      * inversion PL; subst. rewrite <- !app_assoc.
        destruct (core_starts x (deeper lvl)) as (h & t & E & S1 & _); auto.
        rewrite E. cbn [app]. apply eat_ws_ev; auto. apply spaces_lead.
    + cbn beta. eapply ev_bind; [exact AL|]. cbn beta iota.
      unfold close_bracket. rewrite peek_mk. cbn [Z.eqb Pos.eqb]. rewrite get_mk. apply ev_const.
  - rewrite core_obj. cbn [app]. rewrite <- !app_assoc. cbn [app].
    eapply ev_succ. { intros n. cbn [parse_value]. reflexivity. }
    eapply ev_bind; [apply eat_ws_ev0; reflexivity|]. cbn beta. rewrite peek_mk.
    cbn [Z.eqb Pos.eqb].
    eapply ev_bind; [apply eat_ws_ev0; reflexivity|]. cbn beta.
    unfold expect. cbn [failb mk]. rewrite get_mk. cbn [Z.eqb Pos.eqb].
    apply plain_obj in PL.
    assert (LD : deeper lvl = 0%nat \/ Forall (fun kx => no_last_bool (snd kx)) l).
    { destruct LV as [-> |LV]; [left; reflexivity|right; apply no_last_bool_obj; auto]. }
    assert (RD : Forall (fun kx => reads (snd kx) (deeper lvl)) l).
    { rewrite Forall_forall in *. intros x X. apply IH; auto; [apply PL; auto|].
      destruct LD as [LD|LD]; auto. }
    assert (LO : last_ok (endws lvl) l).
    { destruct LV as [-> |LV]; [left; reflexivity|right]. intros k x H B.
      apply no_last_bool_obj in LV. destruct LV as [_ LV].
      rewrite H in LV. cbn in LV. apply LV; auto. intros ->. cbn in H.
      inversion H; subst. destruct B. }
    pose proof (object_loop_ev (deeper lvl) (endws lvl) r (spaces_endws lvl) l [] PL RD LO) as OL.
    eapply ev_bind with (a := mk (members0 (deeper lvl) l (endws lvl) ++ 125 :: r)).
    + destruct l as [|[k x] l]; cbn [members members0 write_comma app].
      * apply eat_ws_ev; [apply spaces_endws|reflexivity].
      * inversion PL as [|? ? [PK PX] PL']; subst. cbn [fst snd] in *.
        destruct (write_id_key (deeper lvl) k PK) as (ws2 & W2 & ->).
        unfold member. rewrite <- !app_assoc. cbn [app]. rewrite <- !app_assoc. cbn [app].
        apply eat_ws_ev; auto.
    + cbn beta. eapply ev_bind; [exact OL|]. cbn beta iota.
      unfold close_bracket. rewrite peek_mk. cbn [Z.eqb Pos.eqb]. rewrite get_mk. apply ev_const.
Qed.

Lemma ev_eat_idem ws c r f b : spaces ws -> isspace c = false ->
  ev (fun n => bind (eat_ws n (mk (c :: r))) (f n)) b ->
  ev (fun n => bind (eat_ws n (mk (ws ++ c :: r))) (f n)) (b : jval * stream).
Proof.
  intros W C [n0 H]. destruct (eat_ws_ev ws c r W C) as [n1 H1].
  destruct (eat_ws_ev0 c r C) as [n2 H2].
  exists (Nat.max n0 (Nat.max n1 n2)). intros n L. rewrite H1 by lia.
  specialize (H n ltac:(lia)). rewrite H2 in H by lia. exact H.
Qed.

Lemma round_trip_ev v lvl : plain v -> (lvl = 0%nat \/ no_last_bool v) ->
  exists s, ev (fun n => parse_value n (mk (lead lvl v ++ core lvl v))) (v, s).
Proof.
  intros PL LV.
  assert (E : exists s, ev (fun n => parse_value n (mk (core lvl v))) (v, s)).
  { assert (D : compound v \/ ~ compound v) by (destruct v; cbn; tauto).
    destruct D as [D|D]; [|apply scalar_eof_ev; auto].
    exists (mk []). pose proof (reads_all v PL lvl LV D []) as R.
    rewrite app_nil_r in R. exact R. }
  destruct E as [s E]. exists s.
  destruct (core_starts v lvl PL) as (h & t & EC & S1 & _). rewrite EC in *.
  eapply ev_succ. { intros n. cbn [parse_value]. reflexivity. }
  apply ev_eat_idem; [apply spaces_lead|auto|].
  destruct E as [n0 E]. exists n0. intros n L. apply (E (S n)). lia.
Qed.

Lemma round_trip v lvl : plain v -> (lvl = 0%nat \/ no_last_bool v) ->
  exists n0, forall n, (n0 <= n)%nat -> ParseJSON n (WriteJSON v lvl) = Ok v.
Proof.
  intros PL LV. destruct (round_trip_ev v lvl PL LV) as (s & n0 & E).
  exists n0. intros n L. unfold ParseJSON, WriteJSON. rewrite write_core by auto.
  cbn [fst write_comma write_id app]. fold (mk (lead lvl v ++ core lvl v)).
  rewrite E by auto. reflexivity.
Qed.

(** ** The text is made of bytes *)

Lemma bytes_app a b : bytes a -> bytes b -> bytes (a ++ b).
Proof. intros. apply Forall_app. auto. Qed.

Lemma bytes_spaces ws : spaces ws -> bytes ws.
Proof. intros W. eapply Forall_impl; [|exact W]. unfold isspace. cbn. lia. Qed.

Lemma bytes_c_str k : bytes k -> bytes (c_str k).
Proof.
  induction 1; cbn; [constructor|]. destruct (x =? 0); [constructor|]. constructor; auto.
Qed.

Lemma bytes_escape s : bytes s -> bytes (flat_map escape_char s).
Proof.
  induction 1 as [|c s C S IH]; cbn; [constructor|]. apply bytes_app; auto.
  unfold escape_char.
  repeat match goal with |- bytes (if ?b then _ else _) => destruct b end;
    repeat constructor; lia.
Qed.

Lemma bytes_comma fl : bytes (write_comma fl).
Proof. destruct fl; repeat constructor; unfold cCOMMA; lia. Qed.

Lemma bytes_id lvl k : plain_key k -> bytes (write_id (Some k) lvl).
Proof.
  intros K. destruct (write_id_key lvl k K) as (ws & W & ->).
  destruct (plain_key_facts k K) as (_ & B & _).
  apply bytes_app; [apply bytes_spaces; auto|]. constructor; [lia|].
  apply bytes_app; auto. repeat constructor; lia.
Qed.

Lemma core_bytes v : plain v -> forall lvl, bytes (core lvl v).
Proof.
  induction v as [|s|t|z|b|l IH|l IH] using jval_ind2; intros PL lvl.
  - destruct PL.
  - cbn [core]. unfold show_str. constructor; [unfold cQUOTE; lia|].
    apply bytes_app; [apply bytes_escape; auto|]. repeat constructor; unfold cQUOTE; lia.
  - destruct PL as [F _]. eapply Forall_impl; [|exact F].
    unfold float_char, isdigit. cbn. lia.
  - cbn [core]. destruct (show_int_shape z PL) as (h & t & -> & H & T).
    constructor; [unfold isdigit in *; lia|].
    eapply Forall_impl; [|exact T]. unfold isdigit. cbn. lia.
  - cbn [core]. destruct b; repeat constructor; lia.
  - rewrite core_arr. constructor; [lia|]. apply bytes_app; [|repeat constructor; lia].
    apply plain_arr in PL. generalize false. induction IH as [|x l X L IHl]; intros fl; cbn [elems].
    + constructor.
    + inversion PL; subst. apply bytes_app; [apply bytes_comma|].
      apply bytes_app; [apply bytes_spaces, spaces_lead|]. apply bytes_app; auto.
  - rewrite core_obj. constructor; [lia|]. apply bytes_app.
    + apply plain_obj in PL. generalize false.
      induction IH as [|[k x] l X L IHl]; intros fl; cbn [members].
      * constructor.
      * inversion PL as [|? ? [PK PX] PL']; subst. cbn [fst snd] in *.
        apply bytes_app; [apply bytes_comma|]. apply bytes_app; [apply bytes_id; auto|].
        apply bytes_app; auto.
    + apply bytes_app; [apply bytes_spaces, spaces_endws|]. repeat constructor; lia.
Qed.

Lemma round_trip_fuel v lvl fuel : plain v -> (lvl = 0%nat \/ no_last_bool v) ->
  (2 * length (WriteJSON v lvl) + 2 <= fuel)%nat ->
  ParseJSON fuel (WriteJSON v lvl) = Ok v.
Proof.
  intros PL LV L. destruct (round_trip v lvl PL LV) as [n0 E].
  assert (B : bytes (WriteJSON v lvl)).
  { unfold WriteJSON. rewrite write_core by auto. cbn [fst write_comma write_id app].
    apply bytes_app; [apply bytes_spaces, spaces_lead|]. apply core_bytes; auto. }
  destruct (ParseJSON_total _ B) as [w T].
  assert (M : ParseJSON (Nat.max n0 fuel) (WriteJSON v lvl) = Ok w)
    by (eapply ParseJSON_mono; [|exact T]; lia).
  rewrite E in M by lia. inversion M; subst w.
  eapply ParseJSON_mono; [|exact T]. lia.
Qed.

(* ------------------------------------------------------------------ *)
(** * C67: the compact form *)

(** Every plain value is read back unchanged from its compact text. *)
Theorem C67_JSON_round_trip v fuel : plain v ->
  (2 * length (WriteJSON v 0) + 2 <= fuel)%nat ->
  ParseJSON fuel (WriteJSON v 0) = Ok v.
Proof. intros PL L. apply round_trip_fuel; auto. Qed.
Print Assumptions C67_JSON_round_trip.

Definition sample : jval :=
  JObj [([97; 32; 98], JArr [JInt (-42); JBool true; JStr [34; 92; 0; 255; 10]; JArr []; JObj []]);
        ([], JObj [([99], JDouble [45; 49; 46; 53; 101; 43; 51; 48]); ([100], JBool false)])].

Example C67_example : plain sample /\
  ParseJSON 300 (WriteJSON sample 0) = Ok sample.
Proof.
  split; [|reflexivity]. cbn.
  repeat match goal with
         | |- _ /\ _ => split
         | |- True => exact Logic.I
         | |- bytes _ => repeat constructor; lia
         | |- plain_key _ => repeat constructor; lia
         | |- decimal _ =>
             split; [repeat constructor|];
             split; [cbn; auto|]; eexists _, _; split; [reflexivity|reflexivity]
         | |- _ => lia
         end.
Qed.

(** Without the conditions the value is not kept: a key with a quote, a key
    with a backslash, an empty value inside an array, and a double whose text
    has no decimal point (1.0, or 10 to the 20th, which becomes 1). *)
Theorem C67_unrestricted_refuted :
  (ParseJSON 100 (WriteJSON (JObj [([34], JInt 1)]) 0) <> Ok (JObj [([34], JInt 1)])) /\
  (ParseJSON 100 (WriteJSON (JObj [([92], JInt 1)]) 0) <> Ok (JObj [([92], JInt 1)])) /\
  (ParseJSON 100 (WriteJSON (JArr [JEmpty; JInt 1]) 0) = Ok (JArr [JInt 1])) /\
  (ParseJSON 100 (WriteJSON (JDouble [49]) 0) = Ok (JInt 1)) /\
  (ParseJSON 100 (WriteJSON (JDouble [49; 101; 43; 50; 48]) 0) = Ok (JInt 1)).
Proof. repeat split; vm_compute; congruence. Qed.
Print Assumptions C67_unrestricted_refuted.

(* ------------------------------------------------------------------ *)
(** * C68: the reader ends on every input *)

(** For every sequence of bytes there is one value that the reader delivers,
    after at most [2 * length + 2] nested calls and loop rounds. *)
Theorem C68_ParseJSON_total text : Forall (fun c => 0 <= c < 256) text ->
  exists v, forall fuel, (2 * length text + 2 <= fuel)%nat -> ParseJSON fuel text = Ok v.
Proof.
  intros B. destruct (ParseJSON_total text B) as [v E]. exists v. intros fuel L.
  eapply ParseJSON_mono; [|exact E]. lia.
Qed.
Print Assumptions C68_ParseJSON_total.

(** An unterminated, ill-formed text; and the empty text, which is read as a
    string holding one byte 255. *)
Example C68_example :
  ParseJSON 100 [91; 123; 34; 97; 34; 58; 92; 44; 125] = Ok (JArr [JObj [([97], JStr [92])]]) /\
  ParseJSON 100 [] = Ok (JStr [255]).
Proof. split; reflexivity. Qed.

(* ------------------------------------------------------------------ *)
(** * C69: the indented form *)

(** Every plain value in which no object ends with a boolean is read back
    unchanged from its indented text, whatever level the writer starts at. *)
Theorem C69_JSON_pretty_round_trip_partial v lvl fuel : plain v -> no_last_bool v ->
  (2 * length (WriteJSON v lvl) + 2 <= fuel)%nat ->
  ParseJSON fuel (WriteJSON v lvl) = Ok v.
Proof. intros PL NB L. apply round_trip_fuel; auto. Qed.
Print Assumptions C69_JSON_pretty_round_trip_partial.

Definition sample2 : jval :=
  JObj [([97], JArr [JInt 7; JObj [([98], JBool true); ([99], JInt (-1))]; JBool false]);
        ([100], JObj [])].

Example C69_example : plain sample2 /\ no_last_bool sample2 /\
  WriteJSON sample2 1 <> WriteJSON sample2 0 /\
  ParseJSON 300 (WriteJSON sample2 1) = Ok sample2.
Proof.
  split; [|split; [|split]].
  - cbn. repeat match goal with
         | |- _ /\ _ => split
         | |- True => exact Logic.I
         | |- plain_key _ => repeat constructor; lia
         | |- _ => lia
         end.
  - cbn. repeat split; intros; try discriminate; auto.
  - vm_compute. discriminate.
  - reflexivity.
Qed.

(** A boolean at the end of an object comes back as a string from the
    indented text, because the line break after it is taken for part of it. *)
Theorem C69_last_bool_refuted :
  ParseJSON 100 (WriteJSON (JObj [([97], JBool true)]) 1)
  = Ok (JObj [([97], JStr [116; 114; 117; 101; 10])]).
Proof. reflexivity. Qed.
Print Assumptions C69_last_bool_refuted.

(* ------------------------------------------------------------------ *)
(** * C70: string literals *)

(** One piece of a string literal: a byte that stands for itself, a backslash
    and a letter, or a backslash, u and four hexadecimal digits. *)
Inductive piece :=
| Raw (c : Z)
| Esc (letter value : Z)
| Uni (a b c d : Z).

(** The character [ch] is the hexadecimal digit of value [v]. *)
Definition hexdigit (ch v : Z) : Prop :=
  (0 <= v <= 9 /\ ch = 48 + v) \/ (10 <= v <= 15 /\ (ch = 65 + (v - 10) \/ ch = 97 + (v - 10))).

(** The escapes of RFC 8259, section 7. *)
Definition escapes : list (Z * Z) :=
  [(34, 34); (92, 92); (47, 47); (98, 8); (102, 12); (110, 10); (114, 13); (116, 9)].

(** [literal t ps m]: the text [t] consists of the pieces [ps] and stands for
    the bytes [m].  Escaped surrogates are left out. *)
Inductive literal : list Z -> list piece -> list Z -> Prop :=
| lit_nil : literal [] [] []
| lit_raw c t ps m : 0 <= c < 256 -> c <> 34 -> c <> 92 -> literal t ps m ->
    literal (c :: t) (Raw c :: ps) (c :: m)
| lit_esc e v t ps m : In (e, v) escapes -> literal t ps m ->
    literal (92 :: e :: t) (Esc e v :: ps) (v :: m)
| lit_uni c1 c2 c3 c4 a b c d t ps m :
    hexdigit c1 a -> hexdigit c2 b -> hexdigit c3 c -> hexdigit c4 d ->
    scalar (4096 * a + 256 * b + 16 * c + d) -> literal t ps m ->
    literal (92 :: 117 :: c1 :: c2 :: c3 :: c4 :: t) (Uni a b c d :: ps)
            (utf8 (4096 * a + 256 * b + 16 * c + d) ++ m).

Lemma hexval_digit ch v : hexdigit ch v -> hexval ch = Some v.
Proof.
  unfold hexdigit, hexval, isdigit. intros H.
  destruct H as [[H ->]|[H [-> | ->]]].
  - replace ((48 <=? 48 + v) && (48 + v <=? 57)) with true by lia. f_equal. lia.
  - replace ((48 <=? 65 + (v - 10)) && (65 + (v - 10) <=? 57)) with false by lia.
    replace ((97 <=? 65 + (v - 10)) && (65 + (v - 10) <=? 102)) with false by lia.
    replace ((65 <=? 65 + (v - 10)) && (65 + (v - 10) <=? 70)) with true by lia. f_equal. lia.
  - replace ((48 <=? 97 + (v - 10)) && (97 + (v - 10) <=? 57)) with false by lia.
    replace ((97 <=? 97 + (v - 10)) && (97 + (v - 10) <=? 102)) with true by lia. f_equal. lia.
Qed.

Lemma hexdigit_char ch v : hexdigit ch v ->
  0 < ch < 256 /\ isspace ch = false /\ ch <> 45 /\ ch <> 43 /\ ch <> 120 /\ ch <> 88 /\
  0 <= v <= 15.
Proof. unfold hexdigit, isspace. lia. Qed.

Lemma strtoul16_digits c1 c2 c3 c4 a b c d :
  hexdigit c1 a -> hexdigit c2 b -> hexdigit c3 c -> hexdigit c4 d ->
  strtoul16 (c_str [c1; c2; c3; c4]) = 4096 * a + 256 * b + 16 * c + d.
Proof.
  intros H1 H2 H3 H4.
  pose proof (hexdigit_char _ _ H1) as (? & ? & ? & ? & _).
  pose proof (hexdigit_char _ _ H2) as (? & _ & _ & _ & ? & ? & _).
  pose proof (hexdigit_char _ _ H3) as (? & _).
  pose proof (hexdigit_char _ _ H4) as (? & _).
  rewrite c_str_id by (repeat constructor; lia).
  unfold strtoul16. cbn [drop_space]. rewrite H0.
  replace (c1 =? 45) with false by lia. replace (c1 =? 43) with false by lia.
  assert (E : hex_prefixed [c1; c2; c3; c4] = hex_digits [c1; c2; c3; c4] 0).
  { unfold hex_prefixed. replace (c2 =? 120) with false by lia.
    replace (c2 =? 88) with false by lia. cbn [orb andb].
    destruct c1 as [|p|p]; auto. repeat (destruct p as [p|p|]; auto). }
  rewrite E. cbn [hex_digits].
  rewrite (hexval_digit _ _ H1), (hexval_digit _ _ H2), (hexval_digit _ _ H3), (hexval_digit _ _ H4).
  lia.
Qed.

Lemma literal_quoted t ps m : literal t ps m -> forall buf r,
  ev (fun n => quoted n buf (mk (t ++ 34 :: r))) (buf ++ m, mk (34 :: r)).
Proof.
  induction 1 as [|c t ps m C1 C2 C3 L IH|e v t ps m I L IH
                  |c1 c2 c3 c4 a b c d t ps m H1 H2 H3 H4 SC L IH]; intros buf r.
  - rewrite app_nil_r. cbn [app]. eapply ev_succ.
    { intros n. cbn [quoted]. rewrite more_mk. cbn. reflexivity. }
    apply ev_const.
  - cbn [app]. eapply ev_succ. { intros n. apply quoted_step_plain; auto. }
    replace (buf ++ c :: m) with ((buf ++ [c]) ++ m) by (rewrite <- app_assoc; reflexivity).
    apply IH.
  - cbn [app]. eapply ev_succ with (F := fun n => quoted n (buf ++ [v]) (mk (t ++ 34 :: r))).
    { intros n. cbn in I.
      repeat (destruct I as [I|I]; [inversion I; reflexivity|]). destruct I. }
    replace (buf ++ v :: m) with ((buf ++ [v]) ++ m) by (rewrite <- app_assoc; reflexivity).
    apply IH.
  - cbn [app].
    pose proof (hexdigit_char _ _ H1) as (? & _ & _ & _ & _ & _ & ?).
    pose proof (hexdigit_char _ _ H2) as (? & _ & _ & _ & _ & _ & ?).
    pose proof (hexdigit_char _ _ H3) as (? & _ & _ & _ & _ & _ & ?).
    pose proof (hexdigit_char _ _ H4) as (? & _ & _ & _ & _ & _ & ?).
    set (cp := 4096 * a + 256 * b + 16 * c + d) in *.
    eapply ev_succ with (F := fun n => quoted n (buf ++ utf8 cp) (mk (t ++ 34 :: r))).
    { intros n. cbn [quoted]. rewrite more_mk. cbn [existsb Z.eqb Pos.eqb orb negb].
      unfold eat_char. rewrite get_mk. change (wrap 8 92) with 92. cbn [Z.eqb Pos.eqb negb].
      repeat (rewrite get_mk; cbn [Z.eqb Pos.eqb]). rewrite !wrap8 by lia.
      rewrite (strtoul16_digits c1 c2 c3 c4 a b c d) by auto. fold cp.
      replace (sgn 32 cp) with cp by (unfold sgn, wrap; rewrite Z.mod_small by (subst cp; lia);
          replace (cp <? 2 ^ (32 - 1)) with true by (subst cp; lia); reflexivity).
      rewrite OutputUnicode_ok by (subst cp; lia). reflexivity. }
    rewrite app_assoc. apply IH.
Qed.

(** A quoted literal without escaped surrogates is read as the bytes it
    stands for, escapes above U+007F giving UTF-8. *)
Theorem C70_JSON_string_literals_partial t ps m fuel : literal t ps m ->
  (2 * length t + 6 <= fuel)%nat ->
  ParseJSON fuel (34 :: t ++ [34]) = Ok (JStr m).
Proof.
  intros L F.
  assert (E : ev (fun n => ParseJSON n (34 :: t ++ [34])) (JStr m)).
  { unfold ParseJSON. fold (mk (34 :: t ++ [34])).
    eapply ev_bind with (a := (JStr m, mk [])); [|apply ev_const].
    eapply ev_succ. { intros n. cbn [parse_value]. reflexivity. }
    eapply ev_bind; [apply eat_ws_ev0; reflexivity|]. cbn beta. rewrite peek_mk.
    cbn [Z.eqb Pos.eqb].
    eapply ev_bind with (a := (m, mk [])); [|apply ev_const].
    unfold parse_str. rewrite none_of_mk. cbn [existsb Z.eqb Pos.eqb orb negb].
    rewrite get_mk. change (wrap 8 34) with 34. cbn [Z.eqb Pos.eqb negb].
    eapply ev_bind; [apply (literal_quoted t ps m L [])|]. cbn beta iota. rewrite get_mk.
    apply ev_const. }
  assert (B : bytes (34 :: t ++ [34])).
  { constructor; [lia|]. apply bytes_app; [|repeat constructor; lia].
    clear - L. induction L as [|c t ps m C1 C2 C3 L IH|e v t ps m I L IH
                  |c1 c2 c3 c4 a b c d t ps m H1 H2 H3 H4 SC L IH].
    - constructor.
    - constructor; auto.
    - constructor; [lia|]. constructor; auto. cbn in I.
      repeat (destruct I as [I|I]; [inversion I; lia|]). destruct I.
    - apply hexdigit_char in H1, H2, H3, H4. repeat (constructor; [lia|]). auto. }
  destruct (ParseJSON_total _ B) as [w T]. destruct E as [n0 E].
  assert (M : ParseJSON (Nat.max n0 fuel) (34 :: t ++ [34]) = Ok w)
    by (eapply ParseJSON_mono; [|exact T]; cbn [length]; rewrite app_length; cbn [length]; lia).
  rewrite E in M by lia. inversion M; subst w.
  eapply ParseJSON_mono; [|exact T]. cbn [length]. rewrite app_length. cbn [length]. lia.
Qed.
Print Assumptions C70_JSON_string_literals_partial.

(** The literal "A\n€" (A, line feed, euro sign). *)
Example C70_example :
  literal [65; 92; 110; 92; 117; 50; 48; 97; 67] [Raw 65; Esc 110 10; Uni 2 0 10 12]
          [65; 10; 0xE2; 0x82; 0xAC] /\
  ParseJSON 40 [34; 65; 92; 110; 92; 117; 50; 48; 97; 67; 34]
  = Ok (JStr [65; 10; 0xE2; 0x82; 0xAC]).
Proof.
  split; [|reflexivity].
  apply lit_raw; [lia|lia|lia|]. apply lit_esc; [cbn; tauto|].
  apply (lit_uni 50 48 97 67 2 0 10 12 [] [] []); unfold hexdigit, scalar; try lia.
  constructor.
Qed.

(** A surrogate pair of escapes, which stands for one character (here
    U+1F600), is read as two separately encoded surrogates. *)
Theorem C70_surrogate_pair_refuted :
  ParseJSON 100 [34; 92; 117; 100; 56; 51; 100; 92; 117; 100; 101; 48; 48; 34]
  = Ok (JStr [0xED; 0xA0; 0xBD; 0xED; 0xB8; 0x80]) /\
  utf8 0x1F600 = [0xF0; 0x9F; 0x98; 0x80].
Proof. split; reflexivity. Qed.
Print Assumptions C70_surrogate_pair_refuted.
