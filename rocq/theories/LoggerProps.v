(* Properties C136 to C140 of the logger: include/bss-util/Logger.h, bss-util/Logger.cpp. *)
From Coq Require Import List ZArith Lia Bool Arith.
From Coq Require Import ZifyBool ZifyNat.
From Verif Require Import Common StrUtil StrUtilProps Stream StreamProps Logger.
Import ListNotations.
Local Open Scope Z_scope.

(* ------------------------------------------------------------------ numbers and times *)
(** the value of decimal digits *)
Definition value_of (t : list Z) : Z := fold_left (fun a c => a * 10 + (c - 48)) t 0.
Definition is_digit (c : Z) : Prop := 48 <= c <= 57.
(** t is the decimal notation of n, without leading zeros *)
Definition decimal_of (n : Z) (t : list Z) : Prop :=
  Forall is_digit t /\ value_of t = n /\ (t = [48] \/ exists c r, t = c :: r /\ c <> 48).
Lemma dec_app n : forall z acc, dec_digits n z acc = dec_digits n z [] ++ acc.
Proof.
  induction n as [|n IH]; intros z acc; cbn [dec_digits]; [auto|]. destruct (z / 10 =? 0); [reflexivity|].
  rewrite IH, (IH _ [48 + z mod 10]), <- app_assoc. reflexivity.
Qed.
Lemma dec_ok n : forall z, 0 <= z < 10 ^ Z.of_nat (S n) -> decimal_of z (dec_digits (S n) z []).
Proof.
  induction n as [|n IH]; intros z B.
  - change (10 ^ Z.of_nat 1) with 10 in B. cbn [dec_digits]. replace (z / 10) with 0 by (symmetry; apply Z.div_small; lia). cbn [Z.eqb].
    rewrite Z.mod_small by lia. split; [repeat constructor; unfold is_digit; lia|]. split; [unfold value_of; cbn [fold_left]; lia|].
    destruct (Z.eq_dec z 0) as [->|]; [auto|]. right. exists (48 + z), []. split; [auto|lia].
  - rewrite Nat2Z.inj_succ, Z.pow_succ_r in B by lia. assert (M : 0 <= z mod 10 < 10) by (apply Z.mod_pos_bound; lia).
    assert (DM := Z.div_mod z 10 ltac:(lia)). cbn [dec_digits]. destruct (Z.eqb_spec (z / 10) 0) as [Q|Q].
    + split; [repeat constructor; unfold is_digit; lia|]. split; [unfold value_of; cbn [fold_left]; lia|].
      destruct (Z.eq_dec z 0) as [->|]; [auto|]. right. exists (48 + z mod 10), []. split; [auto|lia].
    + change (if z / 10 / 10 =? 0 then [48 + (z / 10) mod 10; 48 + z mod 10] else dec_digits n (z / 10 / 10) [48 + (z / 10) mod 10; 48 + z mod 10])
        with (dec_digits (S n) (z / 10) [48 + z mod 10]). rewrite dec_app.
      destruct (IH (z / 10)) as (D & V & H). { lia. }
      split; [apply Forall_app; split; [auto|repeat constructor; unfold is_digit; lia]|]. split.
      * unfold value_of in *. rewrite fold_left_app, V. cbn [fold_left]. lia.
      * right. destruct H as [H|(c & r & H & C)].
        -- rewrite H in V. unfold value_of in V. cbn [fold_left] in V. lia.
        -- rewrite H. exists c, (r ++ [48 + z mod 10]). auto.
Qed.
Lemma show_num_ok z : 0 <= z < 2 ^ 64 -> decimal_of z (show_num z).
Proof. intros B. apply (dec_ok 19). change (10 ^ Z.of_nat 20) with (10 ^ 20). lia. Qed.

(** two decimal digits *)
Definition two_digits (n : Z) : list Z := [48 + n / 10; 48 + n mod 10].
Lemma show_two n : 0 <= n < 100 -> padded 2 (show_num n) = two_digits n.
Proof.
  intros B. unfold show_num, two_digits. cbn [dec_digits]. destruct (Z.eqb_spec (n / 10) 0) as [Q|Q].
  - rewrite Q. reflexivity.
  - replace (n / 10 / 10) with 0 by (symmetry; apply Z.div_small; lia). cbn [Z.eqb padded length Nat.sub repeat app].
    rewrite (Z.mod_small (n / 10)) by lia. reflexivity.
Qed.
Lemma show_one n : 0 <= n < 2 ^ 64 -> padded 1 (show_num n) = show_num n.
Proof.
  intros B. unfold padded. assert (L : (1 <= length (show_num n))%nat).
  { destruct (show_num_ok n B) as (_ & _ & [->|(c & r & -> & _)]); cbn [length]; lia. }
  replace (1 - length (show_num n))%nat with 0%nat by lia. reflexivity.
Qed.
(** the time of a clock that runs tz minutes ahead of the one given *)
Definition local_time (t : tm) (tz : Z) (h m : Z) : Prop :=
  0 <= h < 24 /\ 0 <= m < 60 /\ exists days, 60 * h + m + 1440 * days = 60 * tm_hour t + tm_min t + tz.
Definition good_tm (t : tm) : Prop :=
  0 <= tm_year t + 1900 < 10000 /\ 0 <= tm_mon t < 12 /\ 1 <= tm_mday t <= 31 /\ 0 <= tm_hour t < 24 /\ 0 <= tm_min t < 60 /\ 0 <= tm_sec t <= 60.
(** The time written is the time of day in the zone of the logger: hours, minutes and seconds, the last two with two digits. *)
Theorem C139_time : forall tz t, good_tm t -> -1440 <= tz <= 1440 ->
  exists h m, local_time t tz h m /\ exists hours, decimal_of h hours /\ writeDateTime tz t true = hours ++ [58] ++ two_digits m ++ [58] ++ two_digits (tm_sec t).
Proof.
  intros tz t (Y & MO & D & H & M & S') B. unfold writeDateTime. set (x := tm_hour t * 60 + tm_min t + 1440 + tz).
  assert (X : 0 <= x) by (unfold x; lia).
  rewrite (Z.quot_div_nonneg x 60), (Z.rem_mod_nonneg x 60), Z.rem_mod_nonneg by (try apply Z.div_pos; lia).
  assert (HB : 0 <= (x / 60) mod 24 < 24) by (apply Z.mod_pos_bound; lia). assert (MB : 0 <= x mod 60 < 60) by (apply Z.mod_pos_bound; lia).
  exists ((x / 60) mod 24), (x mod 60). split.
  - split; [auto|]. split; [auto|]. exists (x / 60 / 24 - 1). pose proof (Z.div_mod x 60 ltac:(lia)). pose proof (Z.div_mod (x / 60) 24 ltac:(lia)). unfold x in *. lia.
  - exists (show_num ((x / 60) mod 24)). split; [apply show_num_ok; lia|]. cbn [app]. rewrite show_one, !show_two by lia. reflexivity.
Qed.
Print Assumptions C139_time.
(** With the date, the date is that of UTC: right when no midnight lies between. *)
Theorem C139_date_partial : forall tz t, good_tm t -> 0 <= 60 * tm_hour t + tm_min t + tz < 1440 -> -1440 <= tz <= 1440 ->
  exists year, decimal_of (tm_year t + 1900) year /\
  writeDateTime tz t false = padded 4 year ++ [45] ++ two_digits (tm_mon t + 1) ++ [45] ++ two_digits (tm_mday t) ++ [32] ++ writeDateTime tz t true.
Proof.
  intros tz t (Y & MO & D & H & M & S') NB B. exists (show_num (tm_year t + 1900)). split; [apply show_num_ok; lia|].
  unfold writeDateTime. cbn [app]. rewrite !show_two by lia. rewrite <- !app_assoc. reflexivity.
Qed.
Print Assumptions C139_date_partial.
(** Half an hour before the new year in UTC a logger one hour ahead writes the old date with the time of the new day; and the
    zone a logger uses on posix is always UTC. *)
Theorem C139_date_refuted :
  (exists t tz, good_tm t /\ tm_mon t = 11 /\ tm_mday t = 31 /\ local_time t tz 0 30 /\ 60 * tm_hour t + tm_min t + tz = 1440 + 30 /\
    writeDateTime tz t false = [50; 48; 49; 56; 45; 49; 50; 45; 51; 49; 32] ++ writeDateTime tz t true) /\ GetTimeZoneMinutes = 0.
Proof.
  split; [|reflexivity]. exists (mktm 118 11 31 23 30 5), 60. split; [unfold good_tm; cbn; lia|]. split; [reflexivity|]. split; [reflexivity|].
  split; [split; [lia|]; split; [lia|]; exists 1; reflexivity|]. split; reflexivity.
Qed.
Print Assumptions C139_date_refuted.
Example C139_example : let t := mktm 118 0 9 23 5 7 in
  good_tm t /\ writeDateTime 0 t false = [50; 48; 49; 56; 45; 48; 49; 45; 48; 57; 32; 50; 51; 58; 48; 53; 58; 48; 55] /\
  writeDateTime (-1439) t true = [50; 51; 58; 48; 54; 58; 48; 55] /\ writeDateTime 60 t true = [48; 58; 48; 53; 58; 48; 55].
Proof. cbv zeta. split; [unfold good_tm; cbn; lia|]. repeat split. Qed.

(* ------------------------------------------------------------------ levels *)
Definition level_text (l : list (option (list Z))) (n : Z) : option (list Z) := match nth_error l (Z.to_nat n) with Some t => t | None => None end.
(** Setting the text of the highest level, or of the next one, sets it and leaves the others. *)
Theorem C138_SetLevel_partial : forall l n str, 0 <= n < 255 -> Z.of_nat (length l) = n \/ Z.of_nat (length l) = n + 1 ->
  exists l', SetLevel l n str = Ok l' /\ level_text l' n = Some str /\ Z.of_nat (length l') = n + 1 /\
    forall m, 0 <= m -> m <> n -> level_text l' m = level_text l m.
Proof.
  intros l n str B L. unfold SetLevel. replace (Z.of_nat (length l) >=? n) with true by lia. unfold wrap. rewrite Z.mod_small by lia.
  unfold set_capacity. replace (Z.to_nat (n + 1) <? length l)%nat with false by lia.
  set (l1 := l ++ repeat None (Z.to_nat (n + 1) - length l)). assert (L1 : length l1 = Z.to_nat (n + 1)) by (unfold l1; rewrite app_length, repeat_length; lia).
  rewrite set_ok by lia. eexists. split; [reflexivity|]. split; [|split].
  - unfold level_text. rewrite nth_error_upd_eq by lia. reflexivity.
  - rewrite upd_length. lia.
  - intros m M NE. unfold level_text. rewrite nth_error_upd_neq by lia. unfold l1. destruct (Nat.lt_ge_cases (Z.to_nat m) (length l)).
    + now rewrite nth_error_app1.
    + rewrite nth_error_app2 by lia. rewrite (proj2 (nth_error_None l (Z.to_nat m))) by lia.
      destruct (nth_error (repeat None (Z.to_nat (n + 1) - length l)) (Z.to_nat m - length l)) as [x|] eqn:E; [|reflexivity].
      apply nth_error_In, repeat_spec in E. now subst.
Qed.
Print Assumptions C138_SetLevel_partial.
(** A new logger has the six default levels. *)
Theorem C138_defaults : exists g, new_logger = Ok g /\ levels g = map Some default_levels /\ maxlevel g = 127 /\ backup g = [] /\
  split_ g = Some (mks [] []) /\ lformat g = DEFAULTFORMAT /\ lnull g = Some DEFAULTNULLFORMAT /\ ltz g = 0.
Proof. eexists. split; [vm_compute; reflexivity|]. repeat split. Qed.
Print Assumptions C138_defaults.
(** Setting the text of a lower level forgets all higher levels, and logging at one of them is then undefined; setting a level
    beyond the next one writes outside the array; level 255 empties the array. *)
Theorem C138_SetLevel_refuted :
  (exists g g' o t, new_logger = Ok g /\ log_step (g, o) (SetLev 1 [88]) = Ok (g', o) /\ level_text (levels g) 3 = Some t /\ level_text (levels g') 3 = None /\
     forall source file line text now, log_step (g', o) (Log source file line 3 text now) = UB) /\
  (exists g o, new_logger = Ok g /\ log_step (g, o) (SetLev 7 [88]) = UB) /\
  (exists l, Z.of_nat (length l) = 255 /\ SetLevel l 255 [88] = UB).
Proof.
  split; [|split].
  - eexists. eexists. exists (mko [] [] true). eexists. split; [vm_compute; reflexivity|]. split; [vm_compute; reflexivity|]. split; [reflexivity|]. split; [reflexivity|]. reflexivity.
  - eexists. exists (mko [] [] true). split; [vm_compute; reflexivity|reflexivity].
  - exists (repeat None 255). split; reflexivity.
Qed.
Print Assumptions C138_SetLevel_refuted.
Example C138_example : exists g g', new_logger = Ok g /\ SetLevel (levels g) 6 [84; 82] = Ok (levels g') /\ level_text (levels g') 6 = Some [84; 82] /\ level_text (levels g') 5 = Some [68; 69; 66; 85; 71; 58; 32].
Proof. eexists. exists (mkl (map Some (default_levels ++ [[84; 82]])) 0 None [] None 0 []). split; [vm_compute; reflexivity|]. repeat split. Qed.

(* ------------------------------------------------------------------ what a log line is *)
(** the settings of a logger: the formats as lists of characters and parameters, the texts of the levels from 0 on, the level
    from which on nothing is logged, and the time zone *)
Record settings := mkset { fmt : list piece; nfmt : option (list piece); table : list (list Z); top : Z; zone : Z }.
Definition cstr (t : list Z) : list Z := t ++ [0].
Definition has_settings (g : logger) (st : settings) : Prop :=
  lformat g = cstr (format_text (fmt st)) /\ lnull g = option_map (fun f => cstr (format_text f)) (nfmt st) /\
  levels g = map Some (table st) /\ maxlevel g = top st /\ ltz g = zone st.
Definition chars (t : list Z) : Prop := Forall (fun c => 0 < c) t.
Definition good_pieces (f : list piece) : Prop := good_format f /\ chars (format_text f).
Definition good_settings (st : settings) : Prop :=
  good_pieces (fmt st) /\ match nfmt st with Some f => good_pieces f | None => True end /\ Forall chars (table st).
(** A call on the logger or on a stream: the file of a log call is given by its directory and its name. *)
Inductive call :=
| CLog (source : option (list Z)) (dir name : list Z) (line level : Z) (text : list Z) (now : tm)
| CWrite (i : nat) (text : list Z) | CFlush (i : nat) | CAssim (i : nat) | CTarget (i : nat) | CClear.
Definition op_of (c : call) : lop :=
  match c with
  | CLog source dir name line level text now => Log (option_map cstr source) (cstr (dir ++ name)) line level text now
  | CWrite i t => Write i t
  | CFlush i => FlushStream i
  | CAssim i => Assimilate i
  | CTarget i => AddTarget i
  | CClear => ClearTargets
  end.
(** the format of an entry, the value of parameter n in it, and the line *)
Definition format_for (st : settings) (source : option (list Z)) : list piece :=
  match source, nfmt st with None, Some f => f | _, _ => fmt st end.
Definition level_name (st : settings) (level : Z) : list Z := if level <? 0 then [] else nth (Z.to_nat level) (table st) [].
Definition entry_value (st : settings) (source : option (list Z)) (name : list Z) (line level : Z) (now : tm) (n : nat) : list Z :=
  match n with
  | 0%nat => match source with Some s => s | None => [] end
  | 1%nat => name
  | 2%nat => show_num line
  | 3%nat => level_name st level
  | 4%nat => writeDateTime (zone st) now true
  | 5%nat => writeDateTime (zone st) now false
  | _ => []
  end.
Definition entry (st : settings) (source : option (list Z)) (name : list Z) (line level : Z) (text : list Z) (now : tm) : list Z :=
  flat_map (meaning (entry_value st source name line level now)) (format_for st source) ++ text ++ [10].
(** what a call does to the buffer of the logger *)
Definition events (st : settings) (c : call) : list sop :=
  match c with
  | CLog source dir name line level text now => if level <? top st then [SWrite (entry st source name line level text now); SFlush] else []
  | CWrite i t => [SWrite t]
  | CFlush i => [SFlush]
  | CAssim i => []
  | CTarget i => [SAdd i]
  | CClear => [SClear]
  end.
Definition slash (c : Z) : Prop := c = 47 \/ c = 92.
Definition good_dir (d : list Z) : Prop := d = [] \/ exists c t, slash c /\ d = t ++ [c].
Definition shows_source (f : list piece) : Prop := In (Par1 0) f \/ In (Par2 0 0) f.
(** the calls that the theorem is about: n streams; targets are not added twice, assimilated streams are not targets and not
    assimilated twice, and text is written to assimilated streams only *)
Fixpoint valid (n : nat) (st : settings) (ts cap : list nat) (l : list call) : Prop :=
  match l with
  | [] => True
  | CLog source dir name line level text now :: r =>
      match source with Some s => chars s | None => ~ shows_source (format_for st None) end /\ good_dir dir /\ chars dir /\ chars name /\
      ~ (exists c, slash c /\ In c name) /\ 0 <= line < 2 ^ 64 /\ level < Z.of_nat (length (table st)) /\ good_tm now /\ -1440 <= zone st <= 1440 /\ valid n st ts cap r
  | CWrite i t :: r => In i cap /\ valid n st ts cap r
  | CFlush i :: r => In i cap /\ valid n st ts cap r
  | CAssim i :: r => (i < n)%nat /\ ~ In i ts /\ ~ In i cap /\ valid n st ts (i :: cap) r
  | CTarget i :: r => (i < n)%nat /\ ~ In i ts /\ ~ In i cap /\ valid n st (i :: ts) cap r
  | CClear :: r => valid n st [] cap r
  end.
(** the streams that are assimilated *)
Fixpoint assimilated (l : list call) : list nat := match l with [] => [] | CAssim i :: r => i :: assimilated r | _ :: r => assimilated r end.

(* ------------------------------------------------------------------ paths *)
Fixpoint lastpos (c : Z) (t : list Z) (p : nat) (r : option nat) : option nat :=
  match t with [] => r | x :: t => lastpos c t (S p) (if x =? c then Some p else r) end.
Lemma strrchr_go c t : forall fuel pre rest r, chars t -> (length t < fuel)%nat ->
  strrchr_loop fuel (pre ++ t ++ 0 :: rest) (length pre) c r = Ok (lastpos c t (length pre) r).
Proof.
  induction t as [|x t IH]; intros [|f] pre rest r C L; cbn [length] in L; try lia; cbn [strrchr_loop app lastpos].
  - rewrite get_mid. reflexivity.
  - inversion C as [|? ? X C']; subst. rewrite get_mid. cbn [bind]. replace (x =? 0) with false by lia.
    rewrite (shift pre x), (shift_len pre x), IH by (auto; lia). reflexivity.
Qed.
Lemma strrchr_ok c t : chars t -> strrchr (cstr t) c = Ok (lastpos c t 0 None).
Proof. intros C. apply (strrchr_go c t _ [] [] None); auto. unfold cstr. rewrite app_length. cbn. lia. Qed.
Lemma lastpos_app c t u : forall p r, lastpos c (t ++ u) p r = lastpos c u (p + length t) (lastpos c t p r).
Proof.
  induction t as [|x t IH]; intros p r; cbn [app lastpos length]; [now rewrite Nat.add_0_r|]. rewrite IH. f_equal. lia.
Qed.
Lemma lastpos_none c t : ~ In c t -> forall p r, lastpos c t p r = r.
Proof. induction t as [|x t IH]; intros N p r; cbn in *; [auto|]. replace (x =? c) with false by (symmetry; apply Z.eqb_neq; intuition). apply IH. tauto. Qed.
Lemma lastpos_bound c t : forall p r q, lastpos c t p r = Some q -> (q < p + length t)%nat \/ r = Some q.
Proof.
  induction t as [|x t IH]; intros p r q H; cbn [lastpos length] in *; [auto|]. apply IH in H. destruct H as [H|H]; [lia|].
  destruct (x =? c); [injection H as <-; lia|auto].
Qed.
Lemma trim_ok dir name : good_dir dir -> chars dir -> chars name -> ~ (exists c, slash c /\ In c name) -> trimPath (cstr (dir ++ name)) = Ok (length dir).
Proof.
  intros G C1 C2 N. assert (C : chars (dir ++ name)) by (apply Forall_app; auto). unfold trimPath. rewrite !strrchr_ok by auto. cbn [bind]. f_equal.
  assert (N1 : ~ In 47 name) by (intros I; apply N; exists 47; unfold slash; auto). assert (N2 : ~ In 92 name) by (intros I; apply N; exists 92; unfold slash; auto).
  rewrite !lastpos_app, !(lastpos_none _ name) by auto. destruct G as [->|(c & t & S' & ->)]; [reflexivity|].
  rewrite !lastpos_app. cbn [lastpos Nat.add]. rewrite app_length. cbn [length].
  destruct (lastpos 47 t 0 None) as [q|] eqn:Q; [apply lastpos_bound in Q; destruct Q as [Q|Q]; [|discriminate]|];
  (destruct (lastpos 92 t 0 None) as [q2|] eqn:Q2; [apply lastpos_bound in Q2; destruct Q2 as [Q2|Q2]; [|discriminate]|]);
  destruct S' as [->| ->]; cbn [Z.eqb Pos.eqb]; cbn; lia.
Qed.
Lemma c_text_ok t rest : chars t -> c_text (t ++ 0 :: rest) = t.
Proof. induction 1 as [|c t C T IH]; cbn [c_text app]; [reflexivity|]. replace (c =? 0) with false by lia. now rewrite IH. Qed.
Lemma chars_no_mark t : Forall (fun c => 0 <= c) t -> existsb (Z.eqb (-1)) t = false.
Proof. induction 1 as [|c t C T IH]; [reflexivity|]. cbn [existsb]. rewrite IH. replace (-1 =? c) with false by lia. reflexivity. Qed.
Lemma nonneg t : chars t -> Forall (fun c => 0 <= c) t.
Proof. apply Forall_impl. lia. Qed.
Lemma dec_chars z : 0 <= z < 2 ^ 64 -> Forall (fun c => 0 <= c) (show_num z).
Proof. intros B. destruct (show_num_ok z B) as (D & _). eapply Forall_impl; [|exact D]. unfold is_digit. lia. Qed.
Lemma padded_chars n t : Forall (fun c => 0 <= c) t -> Forall (fun c => 0 <= c) (padded n t).
Proof. intros H. apply Forall_app. split; [|auto]. apply Forall_forall. intros x I. apply repeat_spec in I. lia. Qed.
Lemma time_chars z t b : good_tm t -> -1440 <= z <= 1440 -> Forall (fun c => 0 <= c) (writeDateTime z t b).
Proof.
  intros (Y & MO & D & H & M & S') B. unfold writeDateTime. set (x := tm_hour t * 60 + tm_min t + 1440 + z).
  assert (X : 0 <= x) by (unfold x; lia).
  rewrite (Z.quot_div_nonneg x 60), (Z.rem_mod_nonneg x 60), Z.rem_mod_nonneg by (try apply Z.div_pos; lia).
  assert (HB : 0 <= (x / 60) mod 24 < 24) by (apply Z.mod_pos_bound; lia). assert (MB : 0 <= x mod 60 < 60) by (apply Z.mod_pos_bound; lia).
  destruct b; rewrite !Forall_app; repeat match goal with |- _ /\ _ => split end; try (apply padded_chars, dec_chars; lia); repeat constructor; lia.
Qed.
Lemma flat_map_forall {A B} (P : B -> Prop) (f : A -> list B) l : Forall (fun a => Forall P (f a)) l -> Forall P (flat_map f l).
Proof. induction 1; cbn; [constructor|]. apply Forall_app. auto. Qed.
(** The header of an entry is the format with its parameters replaced. *)
Lemma header_ok g st source dir name line level now : has_settings g st -> good_settings st ->
  match source with Some s => chars s | None => ~ shows_source (format_for st None) end -> good_dir dir -> chars dir -> chars name ->
  ~ (exists c, slash c /\ In c name) -> 0 <= line < 2 ^ 64 -> level < Z.of_nat (length (table st)) -> good_tm now -> -1440 <= zone st <= 1440 ->
  logHeader (lformat g) (lnull g) (option_map cstr source) (cstr (dir ++ name)) line (level_name st level) (ltz g) now =
  Ok (flat_map (meaning (entry_value st source name line level now)) (format_for st source)).
Proof.
  intros (F & NF & LV & MX & TZ) (GF & GN & GT) HS GD CD CN NS LB LL TM ZB. unfold logHeader. rewrite trim_ok by auto. cbn [bind].
  assert (FF : (match option_map cstr source, lnull g with None, Some nf => nf | _, _ => lformat g end) = format_text (format_for st source) ++ 0 :: []).
  { rewrite F, NF. unfold format_for. destruct source, (nfmt st); reflexivity. }
  rewrite FF. assert (GP : good_pieces (format_for st source)) by (unfold format_for; destruct source, (nfmt st); auto).
  rewrite format_F_ok by apply GP. cbn [bind].
  assert (NM : c_text (skipn (length dir) (cstr (dir ++ name))) = name).
  { unfold cstr. rewrite <- app_assoc, skipn_pre. apply c_text_ok. auto. }
  rewrite NM, TZ.
  assert (LN : Forall (fun c => 0 <= c) (level_name st level)).
  { unfold level_name. destruct (level <? 0) eqn:E; [constructor|]. apply nonneg. apply (proj1 (Forall_forall chars (table st)) GT). apply nth_In. lia. }
  assert (EV : forall n, Forall (fun c => 0 <= c) (entry_value st source name line level now n)).
  { intros n. destruct n as [|[|[|[|[|[|n]]]]]]; cbn [entry_value]; auto using nonneg, dec_chars, time_chars.
    destruct source; [apply nonneg; auto|constructor]. }
  assert (EQ : flat_map (meaning (header (option_map cstr source) name line (level_name st level) (zone st) now)) (format_for st source) =
               flat_map (meaning (entry_value st source name line level now)) (format_for st source)).
  { assert (HE : forall n, (n = 0%nat -> source <> None) -> header (option_map cstr source) name line (level_name st level) (zone st) now n = entry_value st source name line level now n).
    { intros n N0. destruct n as [|[|[|[|[|[|n]]]]]]; try reflexivity. destruct source as [s|]; [cbn; apply c_text_ok; auto|]. exfalso. exact (N0 eq_refl eq_refl). }
    assert (SS : forall p, In p (format_for st source) -> (p = Par1 0 \/ p = Par2 0 0) -> source <> None).
    { intros p I P E. subst source. apply HS. unfold shows_source. destruct P as [->| ->]; auto. }
    revert SS. generalize (format_for st source) as l. induction l as [|p l IH]; intros SS; [reflexivity|]. cbn [flat_map].
    rewrite IH by (intros q I; apply SS; now right). f_equal. destruct p as [c|d|d e]; cbn [meaning]; [reflexivity| |]; apply HE; intros Z0.
    - apply (SS (Par1 d)); [now left|]. left. now rewrite Z0.
    - apply (SS (Par2 d e)); [now left|]. right. f_equal; lia. }
  rewrite EQ, chars_no_mark; [reflexivity|]. apply flat_map_forall. destruct GP as [_ CH].
  revert CH. generalize (format_for st source) as l. induction l as [|p l IH]; intros CH; [constructor|]. cbn [format_text flat_map] in CH. apply Forall_app in CH. destruct CH as [C1 C2].
  constructor; [|apply IH; auto]. destruct p; cbn [meaning]; [apply nonneg; exact C1|apply EV|apply EV].
Qed.

(* ------------------------------------------------------------------ delivery *)
Definition send_loop (f : nat) (text : list Z) := fix go (l : list nat) (x : splitter * outside) : res (splitter * outside) :=
  match l with
  | [] => Ok x
  | i :: r =>
      do (s, o) <- write_stream i text x;
      do c <- get (captured o) i;
      do x <- (if c : bool then log_sync f (s, o) else Ok (s, o));
      go r x
  end.
Lemma log_sync_eq f s o : log_sync (S f) (s, o) = do (s', o') <- send_loop f (sbuf s) (stargets s) (s, o); Ok (mks [] (stargets s'), o').
Proof. reflexivity. Qed.
Definition free (cap : list bool) (i : nat) : Prop := nth_error cap i = Some false.
Lemma send_loop_ok f text : forall l s o, Forall (free (captured o)) l -> Forall (fun i => i < length (sinks_ o))%nat l ->
  exists w, s_send l text (sinks_ o) = Ok w /\ length w = length (sinks_ o) /\ send_loop f text l (s, o) = Ok (s, mko w (captured o) (alive o)).
Proof.
  induction l as [|i l IH]; intros s o F B; cbn [s_send]; unfold send_loop; fold (send_loop f text).
  - exists (sinks_ o). destruct o. auto.
  - inversion F as [|? ? Fi F']; inversion B as [|? ? Bi B']; subst. unfold write_stream, get. rewrite Fi. cbn [bind].
    destruct (nth_error (sinks_ o) i) as [old|] eqn:E; [|apply nth_error_None in E; lia]. cbn [bind]. rewrite set_ok by auto. cbn [bind captured]. rewrite Fi. cbn [bind].
    destruct (IH s (mko (upd (sinks_ o) i (old ++ text)) (captured o) (alive o))) as (w & E1 & L & E2); cbn [captured sinks_ alive] in *; auto; [rewrite upd_length; auto|].
    exists w. rewrite upd_length in L. auto.
Qed.
Lemma sync_ok f s o : Forall (free (captured o)) (stargets s) -> Forall (fun i => i < length (sinks_ o))%nat (stargets s) ->
  exists w, s_sync s (sinks_ o) = Ok (mks [] (stargets s), w) /\ length w = length (sinks_ o) /\ log_sync (S f) (s, o) = Ok (mks [] (stargets s), mko w (captured o) (alive o)).
Proof.
  intros F B. destruct (send_loop_ok f (sbuf s) (stargets s) s o F B) as (w & E1 & L & E2). exists w. unfold s_sync. rewrite E1, log_sync_eq, E2. auto.
Qed.
(** the state of the logger against the state of its buffer *)
Definition matches (n : nat) (st : settings) (ts cap : list nat) (s : splitter) (g : logger) (o : outside) : Prop :=
  has_settings g st /\ split_ g = Some s /\ alive o = true /\ length (sinks_ o) = n /\ length (captured o) = n /\
  (forall i, (i < n)%nat -> nth_error (captured o) i = Some (mem_nat i cap)) /\ (forall i, In i (stargets s) -> In i ts) /\
  (forall i, In i ts -> (i < n)%nat /\ ~ In i cap) /\ Forall (fun i => i < n)%nat cap.
Lemma matches_free n st ts cap s g o : matches n st ts cap s g o -> Forall (free (captured o)) (stargets s) /\ Forall (fun i => i < length (sinks_ o))%nat (stargets s).
Proof.
  intros (_ & _ & _ & N & NC & C & T & TS & _). split; apply Forall_forall; intros i I; destruct (TS i (T i I)) as [L NI].
  - unfold free. rewrite C by auto. f_equal. apply not_true_is_false. rewrite mem_nat_in. auto.
  - lia.
Qed.
Lemma cap_bound n st ts cap s g o i : matches n st ts cap s g o -> In i cap -> (i < n)%nat /\ nth_error (captured o) i = Some true.
Proof. intros (_ & _ & _ & N & NC & C & T & TS & CB) I. assert (i < n)%nat by (eapply Forall_forall in CB; eauto). split; [auto|]. rewrite C by auto. f_equal. now apply mem_nat_in. Qed.
(** the lists of targets and of assimilated streams after a call, and what is added to the backups *)
Definition ts_after (ts : list nat) (c : call) : list nat := match c with CTarget i => i :: ts | CClear => [] | _ => ts end.
Definition cap_after (cap : list nat) (c : call) : list nat := match c with CAssim i => i :: cap | _ => cap end.
Lemma log_step_ok n st ts cap s g o c r : good_settings st -> matches n st ts cap s g o -> valid n st ts cap (c :: r) ->
  exists s' g' o', log_step (g, o) (op_of c) = Ok (g', o') /\ s_run (events st c) (s, sinks_ o) = Ok (s', sinks_ o') /\
    matches n st (ts_after ts c) (cap_after cap c) s' g' o' /\ valid n st (ts_after ts c) (cap_after cap c) r /\
    backup g' = backup g ++ map (fun i => (i, false)) (assimilated [c]).
Proof.
  intros GS M V. destruct (matches_free _ _ _ _ _ _ _ M) as [FR BD]. assert (M0 := M). destruct M as (HS & SP & AL & N & NC & C & T & TS & CB).
  destruct c as [source dir name line level text now|i t|i|i|i|]; cbn [valid op_of events ts_after cap_after assimilated map] in *; rewrite ?app_nil_r.
  - destruct V as (V1 & V2 & V3 & V4 & V5 & V6 & V7 & V8 & V9 & V). cbn [log_step]. destruct HS as (F & NF & LV & MX & TZ). rewrite MX.
    destruct (Z.ltb_spec level (top st)) as [LT|GE].
    + replace (level >=? top st) with false by lia.
      assert (LVL : (do lv <- (if level <? 0 then Ok (Some []) else get (levels g) (Z.to_nat level)); match lv with Some t => Ok t | None => UB end) = Ok (level_name st level)).
      { unfold level_name. destruct (level <? 0) eqn:NEG; [reflexivity|]. unfold get. rewrite LV, nth_error_map.
        rewrite (nth_error_nth' (table st) [] (n := Z.to_nat level)) by lia. reflexivity. }
      destruct (if level <? 0 then Ok (Some []) else get (levels g) (Z.to_nat level)) as [lv| |]; cbn [bind] in LVL |- *; try discriminate. rewrite LVL. cbn [bind].
      rewrite (header_ok g st source dir name line level now) by (auto; repeat split; auto). cbn [bind]. unfold the_split. rewrite SP. cbn [bind].
      set (line_ := entry st source name line level text now).
      assert (LE : flat_map (meaning (entry_value st source name line level now)) (format_for st source) ++ text ++ [10] = line_) by reflexivity. rewrite LE.
      destruct (sync_ok 2 (mks (sbuf s ++ line_) (stargets s)) o FR BD) as (w & E1 & L & E2). unfold depth. rewrite E2. cbn [bind]. cbn [stargets].
      exists (mks [] (stargets s)), (with_split g (mks [] (stargets s))), (mko w (captured o) (alive o)). split; [reflexivity|]. split.
      * cbn [s_run s_step bind sbuf stargets]. rewrite E1. reflexivity.
      * split; [|split; [auto|reflexivity]]. split; [repeat split; auto|]. split; [reflexivity|]. cbn [sinks_ captured alive stargets]. repeat split; auto; try lia; now apply TS.
    + replace (level >=? top st) with true by lia. exists s, g, o. split; [reflexivity|]. split; [reflexivity|]. split; [exact M0|auto].
  - destruct V as [I V]. destruct (cap_bound _ _ _ _ _ _ _ _ M0 I) as [Li Ci]. cbn [log_step]. rewrite SP. unfold write_stream, get. rewrite Ci. cbn [bind]. rewrite AL. cbn [bind].
    eexists. eexists. exists o. split; [reflexivity|]. split; [reflexivity|]. split; [|split; [auto|reflexivity]].
    split; [exact HS|]. split; [reflexivity|]. cbn [stargets]. repeat split; auto; try lia; now apply TS.
  - destruct V as [I V]. destruct (cap_bound _ _ _ _ _ _ _ _ M0 I) as [Li Ci]. cbn [log_step]. unfold get. rewrite Ci. cbn [bind]. rewrite AL. unfold the_split. rewrite SP. cbn [bind].
    destruct (sync_ok 2 s o FR BD) as (w & E1 & L & E2). unfold depth. rewrite E2. cbn [bind].
    eexists. eexists. eexists. split; [reflexivity|]. split; [cbn [s_run s_step bind]; rewrite E1; reflexivity|]. split; [|split; [auto|reflexivity]].
    split; [exact HS|]. split; [reflexivity|]. cbn [sinks_ captured alive stargets]. repeat split; auto; try lia; now apply TS.
  - destruct V as (Li & NT & NI & V). cbn [log_step]. unfold get. rewrite C by auto. cbn [bind]. rewrite SP, set_ok by lia. cbn [bind].
    exists s. eexists. eexists. split; [reflexivity|]. split; [reflexivity|].
    split; [|split; [auto|cbn [backup]; f_equal; f_equal; f_equal; apply not_true_is_false; rewrite mem_nat_in; auto]].
    split; [exact HS|]. split; [first [exact SP|reflexivity]|]. cbn [sinks_ captured alive]. rewrite upd_length. split; [auto|]. split; [auto|]. split; [auto|]. split; [|split; [|split]].
    + intros j Lj. cbn [mem_nat existsb]. fold (mem_nat j cap). destruct (Nat.eqb_spec j i) as [->|NE].
      * rewrite nth_error_upd_eq by lia. reflexivity.
      * rewrite nth_error_upd_neq by auto. now rewrite C.
    + auto.
    + intros j J. destruct (TS j J). split; [auto|]. intros [->|X]; auto.
    + constructor; auto.
  - destruct V as (Li & NT & NI & V). cbn [log_step]. rewrite SP. destruct (sync_ok 2 s o FR BD) as (w & E1 & L & E2). unfold depth. rewrite E2. cbn [bind].
    eexists. eexists. eexists. split; [reflexivity|]. split; [cbn [s_run s_step bind]; rewrite E1; reflexivity|]. split; [|split; [auto|reflexivity]].
    split; [exact HS|]. split; [reflexivity|]. cbn [sinks_ captured alive stargets sbuf]. split; [auto|]. split; [lia|]. split; [lia|]. split; [auto|]. split; [|split; [|auto]].
    + intros j J. apply in_app_or in J. cbn in *. destruct J as [J|[->|[]]]; auto.
    + intros j [->|J]; auto.
  - cbn [log_step]. rewrite SP. destruct (sync_ok 2 s o FR BD) as (w & E1 & L & E2). unfold depth. rewrite E2. cbn [bind].
    eexists. eexists. eexists. split; [reflexivity|]. split; [cbn [s_run s_step bind]; rewrite E1; reflexivity|]. split; [|split; [auto|reflexivity]].
    split; [exact HS|]. split; [reflexivity|]. cbn [sinks_ captured alive stargets sbuf]. split; [auto|]. split; [lia|]. split; [lia|]. split; [auto|]. split; [|split; [|auto]].
    + intros j [].
    + intros j [].
Qed.
Lemma s_run_app a b x : s_run (a ++ b) x = do x <- s_run a x; s_run b x.
Proof. revert x; induction a as [|o a IH]; intros x; cbn [app s_run bind]; [reflexivity|]. destruct (s_step x o); cbn [bind]; auto. Qed.
Lemma log_run_ok n st calls : good_settings st -> forall ts cap s g o, matches n st ts cap s g o -> valid n st ts cap calls ->
  exists ts' s' g' o', log_run (map op_of calls) (g, o) = Ok (g', o') /\ s_run (flat_map (events st) calls) (s, sinks_ o) = Ok (s', sinks_ o') /\
    matches n st ts' (rev (assimilated calls) ++ cap) s' g' o' /\ backup g' = backup g ++ map (fun i => (i, false)) (assimilated calls).
Proof.
  intros GS. induction calls as [|c calls IH]; intros ts cap s g o M V; cbn [map log_run flat_map].
  - exists ts, s, g, o. cbn [s_run assimilated rev app map]. rewrite app_nil_r. auto.
  - destruct (log_step_ok n st ts cap s g o c calls GS M V) as (s1 & g1 & o1 & E1 & R1 & M1 & V1 & B1). rewrite E1. cbn [bind].
    destruct (IH _ _ _ _ _ M1 V1) as (ts2 & s2 & g2 & o2 & E2 & R2 & M2 & B2). exists ts2, s2, g2, o2. split; [auto|]. split; [rewrite s_run_app, R1; cbn [bind]; auto|].
    assert (CA : rev (assimilated (c :: calls)) ++ cap = rev (assimilated calls) ++ cap_after cap c) by (destruct c; cbn [assimilated rev cap_after]; rewrite <- ?app_assoc; reflexivity).
    assert (AA : assimilated (c :: calls) = assimilated [c] ++ assimilated calls) by (destruct c; reflexivity).
    split; [now rewrite CA|]. rewrite B2, B1, AA, map_app, app_assoc. reflexivity.
Qed.
Lemma valid_events n st calls : forall ts cap, valid n st ts cap calls -> added_once ts (flat_map (events st) calls) /\ Forall (known n) (flat_map (events st) calls).
Proof.
  induction calls as [|c calls IH]; intros ts cap V; cbn [flat_map]; [split; constructor|].
  destruct c as [source dir name line level text now|i t|i|i|i|]; cbn [valid events] in *.
  - destruct V as (_ & _ & _ & _ & _ & _ & _ & _ & _ & V). destruct (IH _ _ V). destruct (level <? top st); cbn [app added_once]; split; auto; repeat (constructor; cbn; auto).
  - destruct V as [_ V]. destruct (IH _ _ V). cbn [app added_once]. split; auto; try (constructor; cbn; auto).
  - destruct V as [_ V]. destruct (IH _ _ V). cbn [app added_once]. split; auto; try (constructor; cbn; auto).
  - destruct V as (_ & _ & _ & V). destruct (IH _ _ V). cbn [app]. auto.
  - destruct V as (L & NI & _ & V). destruct (IH _ _ V). cbn [app added_once]. split; auto; try (constructor; cbn; auto).
  - destruct (IH _ _ V). cbn [app added_once]. split; auto; try (constructor; cbn; auto).
Qed.
(** a logger without targets and backups *)
Definition fresh (g : logger) (st : settings) : Prop := has_settings g st /\ split_ g = Some (mks [] []) /\ backup g = [].
Lemma fresh_matches n st g w : fresh g st -> length w = n -> matches n st [] [] (mks [] []) g (mko w (repeat false n) true).
Proof.
  intros (HS & SP & B) L. split; [auto|]. split; [auto|]. cbn [sinks_ captured alive stargets]. split; [auto|]. split; [auto|]. split; [apply repeat_length|]. split; [|split; [|split]].
  - intros i Li. cbn [mem_nat existsb]. clear - Li. revert i Li. induction n; intros [|i] L; cbn; try lia; auto. apply IHn. lia.
  - intros i [].
  - intros i [].
  - constructor.
Qed.
(** Every target receives, in order and once, the entries logged below the maximum level and the text of assimilated streams,
    from the moment it is added until the targets are cleared; an entry is there when the call returns, and only text of
    assimilated streams that was not flushed may be waiting. *)
Theorem C136_delivery : forall st g w calls, good_settings st -> fresh g st -> valid (length w) st [] [] calls ->
  let said := flat_map (events st) calls in
  exists g' o', log_run (map op_of calls) (g, mko w (repeat false (length w)) true) = Ok (g', o') /\ forall i, (i < length w)%nat ->
    nth i (sinks_ o') [] ++ (if target_after i false said then pending [] said else []) = nth i w [] ++ heard i false said.
Proof.
  intros st g w calls GS FR V said. destruct (log_run_ok (length w) st calls GS _ _ _ _ _ (fresh_matches (length w) st g w FR eq_refl) V) as (ts & s & g' & o' & E & R & M & B).
  exists g', o'. split; [exact E|]. destruct (valid_events _ _ _ _ _ V) as [A K]. destruct (C135_splitter said w A K) as (s2 & w2 & E2 & L2 & H).
  cbn [sinks_] in R. fold said in R. unfold sinks in *. assert (W : w2 = sinks_ o') by (rewrite E2 in R; inversion R; reflexivity). rewrite <- W. exact H.
Qed.
Print Assumptions C136_delivery.
(** the line of an entry with the default formats: time, source, file name, line number, level *)
Definition DEFAULT : settings :=
  mkset [Par1 4; Chr 32; Chr 91; Par1 0; Chr 93; Chr 32; Chr 40; Par1 1; Chr 58; Par1 2; Chr 41; Chr 32; Par1 3]
    (Some [Par1 4; Chr 32; Chr 40; Par1 1; Chr 58; Par1 2; Chr 41; Chr 32; Par1 3]) default_levels 127 0.
Ltac no_param := intros (d & t & D & [H|(e & E & H)]); cbn in H; injection H; intros; lia.
Ltac good_fmt := cbn [good_format]; repeat match goal with |- _ /\ _ => split end; try lia; try exact I; try no_param; try (intros (d & t & D & [H|(e & E & H)]); cbn in H; discriminate).
Lemma default_good : good_settings DEFAULT.
Proof.
  split; [|split]; cbn [DEFAULT fmt nfmt table].
  - split; [good_fmt|]. cbn. repeat constructor; lia.
  - split; [good_fmt|]. cbn. repeat constructor; lia.
  - repeat constructor; lia.
Qed.
(** A new logger is such a logger, with the default settings. *)
Theorem C136_new : exists g, new_logger = Ok g /\ fresh g DEFAULT /\ good_settings DEFAULT.
Proof. eexists. split; [vm_compute; reflexivity|]. split; [|apply default_good]. repeat split. Qed.
Print Assumptions C136_new.
Example C136_example :
  let now := mktm 118 0 9 23 5 7 in
  let calls := [CTarget 0; CAssim 1; CLog (Some [65]) [47; 97; 47] [98; 46; 99] 12 1 [104; 105] now; CWrite 1 [111]; CLog None [] [122] 3 (-1) [33] now;
                CWrite 1 [112]; CFlush 1; CClear; CWrite 1 [113]; CTarget 2; CWrite 1 [114]; CLog None [] [122] 3 127 [33] now] in
  valid 3 (mkset (fmt DEFAULT) (nfmt DEFAULT) (repeat [] 128) 127 0) [] [] calls /\
  valid 3 DEFAULT [] [] [CTarget 0; CLog (Some [65]) [47; 97; 47] [98; 46; 99] 12 1 [104; 105] now] /\
  heard 0 false (flat_map (events DEFAULT) calls) =
    [50;51;58;48;53;58;48;55; 32; 91;65;93; 32; 40;98;46;99;58;49;50;41; 32; 69;82;82;79;82;58;32; 104;105;10; 111;
     50;51;58;48;53;58;48;55; 32; 40;122;58;51;41; 32; 33;10; 112] /\
  heard 2 false (flat_map (events DEFAULT) calls) = [114].
Proof.
  assert (T : good_tm (mktm 118 0 9 23 5 7)) by (unfold good_tm; cbn; lia).
  assert (NS : forall z, z <> 47 -> z <> 92 -> ~ (exists c, slash c /\ In c [z])) by (intros z A B (c & [->| ->] & [I|[]]); congruence).
  assert (NB : ~ (exists c, slash c /\ In c [98; 46; 99])) by (intros (c & [->| ->] & I); cbn in I; intuition discriminate).
  assert (GD : good_dir [47; 97; 47]) by (right; exists 47, [47; 97]; split; [now left|reflexivity]).
  cbv zeta. split; [|split; [|split; reflexivity]].
  - cbn [valid fmt nfmt table zone]. rewrite repeat_length. repeat match goal with |- _ /\ _ => split end; auto; try (repeat constructor; lia); try lia; try (apply NS; lia);
    try (unfold good_dir; auto; fail); try (cbn; intuition (discriminate || lia); fail).
    all: intros [I|I]; cbn in I; intuition discriminate.
  - cbn [valid]. repeat match goal with |- _ /\ _ => split end; auto; try (repeat constructor; lia); cbn; try lia; tauto.
Qed.

Lemma restore_ok l : forall cs, (forall i, In i l -> (i < length cs)%nat) ->
  exists cs', restore (map (fun i => (i, false)) l) cs = Ok cs' /\ length cs' = length cs /\
    forall j, (j < length cs)%nat -> nth_error cs' j = if mem_nat j l then Some false else nth_error cs j.
Proof.
  induction l as [|i l IH]; intros cs B; cbn [map restore].
  - exists cs. auto.
  - rewrite set_ok by (apply B; now left). cbn [bind]. destruct (IH (upd cs i false)) as (cs' & -> & L & H); [intros j J; rewrite upd_length; apply B; now right|].
    rewrite upd_length in *. exists cs'. split; [auto|]. split; [auto|]. intros j Lj. rewrite H by auto. cbn [mem_nat existsb]. fold (mem_nat j l).
    destruct (mem_nat j l) eqn:MJ; [now rewrite orb_true_r|]. rewrite orb_false_r. destruct (Nat.eqb_spec j i) as [->|NE]; [apply nth_error_upd_eq; lia|apply nth_error_upd_neq; auto].
Qed.
(** When the logger is destroyed every target has received all its text, and every assimilated stream has its own buffer
    again. *)
Theorem C137_destroy_partial : forall st g w calls, good_settings st -> fresh g st -> valid (length w) st [] [] calls ->
  exists g' o' o'', log_run (map op_of calls) (g, mko w (repeat false (length w)) true) = Ok (g', o') /\ destroy (g', o') = Ok o'' /\
    captured o'' = repeat false (length w) /\ forall i, (i < length w)%nat -> nth i (sinks_ o'') [] = nth i w [] ++ heard i false (flat_map (events st) calls).
Proof.
  intros st g w calls GS FR V. set (n := length w). destruct (log_run_ok n st calls GS _ _ _ _ _ (fresh_matches n st g w FR eq_refl) V) as (ts & s & g' & o' & E & R & M & B).
  destruct (valid_events _ _ _ _ _ V) as [A K]. set (said := flat_map (events st) calls) in *.
  assert (A2 : added_once [] (said ++ [SClear])).
  { clear - A. revert A. generalize (@nil nat) as t. induction said as [|x l IH]; intros t A; [exact I|]. destruct x; cbn [app added_once] in *; [auto|auto| |auto]. destruct A. auto. }
  destruct (log_step_ok n st ts _ s g' o' CClear [] GS M I) as (s2 & g2 & o2 & E2 & R2 & M2 & _ & B2).
  destruct (C135_splitter (said ++ [SClear]) w A2) as (s3 & w3 & E3 & L3 & H). { apply Forall_app. split; [exact K|]. constructor; [exact I|constructor]. }
  cbn [sinks_] in R. unfold sinks in *. rewrite s_run_app, R in E3. cbn [bind events] in E3, R2. rewrite R2 in E3. injection E3 as <- <-.
  destruct FR as (HS & SP & BK). rewrite BK in B. cbn [app] in B. cbn [assimilated map] in B2. rewrite app_nil_r in B2.
  destruct M2 as (HS2 & SP2 & AL2 & N2 & NC2 & C2 & T2 & TS2 & CB2). cbn [cap_after] in *. rewrite app_nil_r in *.
  destruct (restore_ok (assimilated calls) (captured o2)) as (cs & RE & LC & RC).
  { intros i I. rewrite NC2. eapply Forall_forall in CB2; [exact CB2|]. now apply in_rev in I. }
  exists g', o', (mko (sinks_ o2) cs false). split; [exact E|]. split.
  - unfold destroy. cbn [op_of] in E2. rewrite E2. cbn [bind]. rewrite B2, B, RE. cbn [bind]. rewrite SP2. reflexivity.
  - cbn [captured sinks_]. split.
    + apply nth_error_ext. intros j. destruct (Nat.lt_ge_cases j n) as [Lj|Gj].
      * rewrite RC by lia. rewrite C2 by auto.
        assert (Q : nth_error (repeat false n) j = Some false) by (clear - Lj; revert j Lj; induction n; intros [|j] L; cbn; try lia; auto; apply IHn; lia). rewrite Q.
        destruct (mem_nat j (assimilated calls)) eqn:MJ; [reflexivity|]. f_equal. apply not_true_is_false. rewrite mem_nat_in, <- in_rev, <- mem_nat_in. congruence.
      * rewrite !(proj2 (nth_error_None _ j)); [reflexivity|rewrite repeat_length; lia|lia].
    + intros i Li. specialize (H i Li). assert (P : forall l acc, pending acc (l ++ [SClear]) = []) by (induction l as [|[] l IH]; intros; cbn; auto).
      assert (Q : forall l on, heard i on (l ++ [SClear]) = heard i on l) by (induction l as [|[] l IH]; intros; cbn; rewrite ?IH; auto).
      rewrite P, Q in H. destruct (target_after i false (said ++ [SClear])); rewrite app_nil_r in H; exact H.
Qed.
Print Assumptions C137_destroy_partial.
(** A stream that was assimilated twice is left with the buffer of the destroyed logger, and the next character written to it
    is undefined; and if an assimilated stream is also a target, logging an entry never ends. *)
Theorem C137_destroy_refuted :
  (exists g g' o' o'', new_logger = Ok g /\ log_run [Assimilate 0; Assimilate 0] (g, mko [[]] [false] true) = Ok (g', o') /\ destroy (g', o') = Ok o'' /\
     captured o'' = [true] /\ alive o'' = false /\ forall g c, log_step (g, o'') (Write 0 [c]) = UB) /\
  (exists g g' o', new_logger = Ok g /\ log_run [AddTarget 0; Assimilate 0] (g, mko [[]] [false] true) = Ok (g', o') /\
     forall s text fuel, split_ g' = Some s -> log_sync fuel (mks (sbuf s ++ text) (stargets s), o') = OutOfFuel).
Proof.
  split.
  - eexists. eexists. eexists. eexists. split; [vm_compute; reflexivity|]. split; [vm_compute; reflexivity|]. split; [vm_compute; reflexivity|]. split; [reflexivity|]. split; [reflexivity|].
    intros g c. cbn [log_step]. destruct (split_ g); reflexivity.
  - eexists. eexists. eexists. split; [vm_compute; reflexivity|]. split; [vm_compute; reflexivity|]. intros s text fuel H. cbn in H. injection H as <-. cbn [sbuf stargets app].
    generalize text. induction fuel as [|f IH]; intros t; [reflexivity|]. rewrite log_sync_eq. cbn [sbuf stargets]. unfold send_loop. unfold write_stream. cbn -[log_sync]. rewrite IH. reflexivity.
Qed.
Print Assumptions C137_destroy_refuted.
Example C137_example :
  let calls := [CAssim 1; CTarget 0; CWrite 1 [111]; CAssim 2; CWrite 2 [112]] in
  valid 3 DEFAULT [] [] calls /\ heard 0 false (flat_map (events DEFAULT) calls) = [111; 112].
Proof. cbv zeta. split; [|reflexivity]. cbn. repeat split; auto; lia || intuition discriminate. Qed.

(* ------------------------------------------------------------------ moves *)
(** A logger constructed from another by moving has its levels, formats, targets, waiting text and assimilated streams, the destruction of the other changes nothing outside. *)
Theorem C140_move_partial : forall g o, let (a, b) := log_moved g in
  levels a = levels g /\ maxlevel a = maxlevel g /\ lformat a = lformat g /\ lnull a = lnull g /\ split_ a = split_ g /\ backup a = backup g /\
  (ltz g = GetTimeZoneMinutes -> a = g) /\ destroy (b, o) = Ok o.
Proof. intros [lv mx sp f nf tz bk] [w c a]. cbn. repeat (split; [reflexivity|]). split; [intros ->; reflexivity|reflexivity]. Qed.
Print Assumptions C140_move_partial.
(** Move assignment takes over neither levels nor formats nor the maximum level, and the streams that the assigned logger had
    assimilated do not get their buffers back when it is destroyed. *)
Theorem C140_move_refuted :
  (exists g h, levels h <> levels (fst (log_assign g h)) /\ maxlevel h <> maxlevel (fst (log_assign g h)) /\ lformat h <> lformat (fst (log_assign g h))) /\
  (exists g h g' o' o'', new_logger = Ok g /\ new_logger = Ok h /\ log_run [Assimilate 0] (g, mko [[]] [false] true) = Ok (g', o') /\
     destroy (fst (log_assign g' h), o') = Ok o'' /\ captured o'' = [true]).
Proof.
  split.
  - exists (mkl [] 127 None [] None 0 []), (mkl [None] 3 None [0] None 0 []). cbn. repeat split; discriminate.
  - eexists. eexists. eexists. eexists. eexists. split; [vm_compute; reflexivity|]. split; [vm_compute; reflexivity|]. split; [vm_compute; reflexivity|]. split; [vm_compute; reflexivity|reflexivity].
Qed.
Print Assumptions C140_move_refuted.
Example C140_example : exists g g' o' o'', new_logger = Ok g /\ log_run [AddTarget 0; Assimilate 1; Write 1 [65]] (g, mko [[]; []] [false; false] true) = Ok (g', o') /\
  destroy (fst (log_moved g'), o') = Ok o'' /\ sinks_ o'' = [[65]; []] /\ captured o'' = [false; false].
Proof. eexists. eexists. eexists. eexists. split; [vm_compute; reflexivity|]. split; [vm_compute; reflexivity|]. split; [vm_compute; reflexivity|]. split; reflexivity. Qed.
