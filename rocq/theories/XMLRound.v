(** * XML: the reader on what the writer writes *)
From Coq Require Import ZArith List Bool Lia ZifyBool ZifyNat.
From Verif Require Import Common BitUtil JSON JSONProofs Str XML XMLSpec XMLProofs.
Import ListNotations.
Local Open Scope Z_scope.

Notation G l := (Stream l Good).
(** after matching: the next character has been looked at *)
Definition fin (r : list Z) : stream := match r with [] => Stream [] Eof | _ => G r end.

(* ------------------------------------------------------------------ Trim *)
Lemma rtrim_index_ge s k : (33 <= schar (nth k s 0)) -> forall i, (k <= i)%nat -> (k <= rtrim_index s i)%nat.
Proof.
  intros K. induction i as [|i IH]; intros L; [cbn; lia|]. cbn [rtrim_index].
  destruct (schar (nth (S i) s 0) <? 33) eqn:E; [|lia]. apply IH. assert (k <> S i) by (intros ->; lia). lia.
Qed.
Lemma rtrim_index_le s i : (rtrim_index s i <= i)%nat.
Proof. induction i; cbn [rtrim_index]; [lia|]. destruct (_ <? _); lia. Qed.
Lemma last_nth' (s : list Z) : s <> [] -> last s 0 = nth (length s - 1) s 0.
Proof.
  induction s as [|a s IH]; [congruence|]. intros _. destruct s as [|b s]; [reflexivity|].
  change (last (a :: b :: s) 0) with (last (b :: s) 0). rewrite IH by congruence. cbn [length]. replace (S (S (length s)) - 1)%nat with (S (S (length s) - 1))%nat by lia. reflexivity.
Qed.
Lemma trim_edges s : edges s -> Forall (fun c => 0 < c < 256) s -> Trim s = s.
Proof.
  intros (N & H & L) P. unfold Trim.
  assert (F : firstn (S (rtrim_index s (length s))) s = s).
  { apply firstn_all2. assert (length s - 1 <= rtrim_index s (length s))%nat; [|lia].
    apply rtrim_index_ge; [|lia]. rewrite <- last_nth' by auto. unfold schar. destruct (_ <? 128) eqn:E; lia. }
  rewrite F, c_str_id. 2: { eapply Forall_impl; [|exact P]. cbn; lia. }
  destruct s as [|a s]; [congruence|]. cbn in H |- *. inversion P; subst. unfold schar. destruct (a <? 128) eqn:E.
  - replace (a <? 33) with false by lia. now rewrite andb_false_r.
  - replace (0 <? a - 256) with false by lia. reflexivity.
Qed.
Lemma ltrim_not_nil s : Exists (fun c => 33 <= c < 128 \/ c >= 128) s -> Forall (fun c => 0 < c < 256) s -> ltrim s <> [].
Proof.
  induction s as [|a s IH]; intros E P; [inversion E|]. inversion P; subst. cbn.
  destruct ((0 <? schar a) && (schar a <? 33)) eqn:X; [|congruence].
  inversion E; subst; [|auto]. exfalso. unfold schar in X. destruct (a <? 128) eqn:B; lia.
Qed.
Lemma trim_value v : good_value v -> v <> [] -> Trim v <> [].
Proof.
  intros [P D] N. destruct D as [D|D]; [congruence|]. unfold Trim.
  assert (Z : Forall (fun c => 0 < c < 256) (firstn (S (rtrim_index v (length v))) v)).
  { rewrite Forall_forall in *. intros x X. apply P. rewrite <- (firstn_skipn (S (rtrim_index v (length v))) v). apply in_or_app; auto. }
  rewrite c_str_id. 2: { eapply Forall_impl; [|exact Z]. cbn; lia. }
  apply ltrim_not_nil; auto. destruct D as [D|D].
  - apply Exists_exists in D as (x & X & R). apply In_nth with (d := 0) in X as (k & K & X).
    apply Exists_exists. exists x. split; [|lia]. rewrite <- X.
    assert (K' : (k <= rtrim_index v (length v))%nat). { apply rtrim_index_ge; [|lia]. rewrite X. unfold schar. destruct (x <? 128) eqn:B; lia. }
    rewrite <- (firstn_skipn (S (rtrim_index v (length v))) v) at 1. rewrite app_nth1 by (rewrite firstn_length; lia). apply nth_In. rewrite firstn_length. lia.
  - destruct v as [|a v]; [congruence|]. cbn in D |- *. left. lia.
Qed.

(* ------------------------------------------------------------------ matching *)
Lemma suffix1 x : forall m r out, ~ In x m -> match_suffix [x] (m ++ x :: r) 0 out = (1%nat, out ++ m ++ [x], fin r).
Proof.
  induction m as [|c m IH]; intros r out N.
  - cbn. rewrite Z.eqb_refl. destruct r; reflexivity.
  - cbn [app match_suffix length Nat.eqb nth]. replace (c =? x) with false by (symmetry; apply Z.eqb_neq; intros ->; apply N; left; auto).
    rewrite IH by (intros X; apply N; right; auto). now rewrite <- app_assoc.
Qed.
Lemma suffix2 : forall m r out j, Forall (fun c => c <> 62) m -> (j = 0 \/ j = 1)%nat -> (m = [] -> j = 0%nat) -> last m 0 <> 63 ->
  match_suffix qDECL (m ++ 63 :: 62 :: r) j out = (2%nat, out ++ m ++ [63; 62], fin r).
Proof.
  induction m as [|c m IH]; intros r out j N J E L.
  - rewrite (E eq_refl). cbn. destruct r; cbn; now rewrite <- app_assoc.
  - inversion N; subst. cbn [app match_suffix qDECL length].
    assert (E2 : (j =? 2)%nat = false) by (destruct J; subst; auto). rewrite E2. fold qDECL.
    rewrite IH; auto.
    + now rewrite <- app_assoc.
    + destruct J as [-> | ->]; cbn; [destruct (c =? 63)|replace (c =? 62) with false by lia]; auto.
    + intros ->. cbn in L. destruct J as [-> | ->]; cbn; [replace (c =? 63) with false by lia|replace (c =? 62) with false by lia]; auto.
    + destruct m; [cbn; lia|exact L].
Qed.
Lemma prefix_app p : forall l, l <> [] -> match_prefix p (p ++ l) = Some (true, G l).
Proof.
  induction p as [|c p IH]; intros l N; cbn; [destruct l; [congruence|reflexivity]|]. rewrite Z.eqb_refl. auto.
Qed.
Lemma eat_space_at c t : isspace c = false -> eat_space (c :: t) = G (c :: t).
Proof. cbn. now intros ->. Qed.
Lemma eat_space_ws ws : spaces ws -> forall l, eat_space (ws ++ l) = eat_space l.
Proof. induction 1 as [|c ws C W IH]; intros l; cbn; [auto|]. now rewrite C. Qed.
Lemma firstn_app1 (m q : list Z) : firstn (length (m ++ q) - length q) (m ++ q) = m.
Proof. rewrite app_length. replace (length m + length q - length q)%nat with (length m) by lia. rewrite firstn_app, Nat.sub_diag, firstn_all. cbn. apply app_nil_r. Qed.

(** p*x *)
Lemma xmatch_star ws p x m r out : spaces ws -> isspace (hd x (p ++ m)) = false -> ~ In x m ->
  xmatch (G (ws ++ p ++ m ++ x :: r)) out p (Some [x]) = (true, fin r, m).
Proof.
  intros W H N. unfold xmatch. cbn [st rest]. rewrite eat_space_ws by auto.
  assert (E : eat_space (p ++ m ++ x :: r) = G (p ++ m ++ x :: r)).
  { destruct p as [|c p]; [destruct m as [|c m]|]; cbn in H |- *; rewrite H; reflexivity. }
  rewrite E. cbn [st rest]. rewrite prefix_app by (destruct m; discriminate). cbn [st rest].
  rewrite suffix1 by auto. cbn [app length Nat.eqb].
  change 1%nat with (length [x]) at 1. now rewrite firstn_app1.
Qed.
Lemma xmatch_no c l out p q : isspace c = false -> match_prefix p (c :: l) = None -> xmatch (G (c :: l)) out p q = (false, G (c :: l), out).
Proof. intros C M. unfold xmatch. cbn [st rest]. rewrite eat_space_at by auto. cbn [st rest]. now rewrite M. Qed.

(* ------------------------------------------------------------------ attributes *)
Lemma write_string_attr s : Forall (fun c => 0 < c < 256 /\ c <> 34 /\ c <> 62) s -> write_string true s = s.
Proof.
  intros H. unfold write_string. rewrite c_str_id. 2: { eapply Forall_impl; [|exact H]. cbn; lia. }
  induction H as [|c s C H IH]; cbn; [auto|]. replace (c =? 34) with false by lia. cbn. congruence.
Qed.
Lemma add_attr_new l v : ~ In (fst v) (map fst l) -> add_attr l v = l ++ [v].
Proof.
  induction l as [|w l IH]; cbn; intros N; [auto|]. destruct (list_eq_dec Z.eq_dec (fst w) (fst v)); [exfalso; auto|]. rewrite IH; auto.
Qed.
Lemma edges_head s : edges s -> isspace (hd 0 s) = false.
Proof. intros (_ & H & _). unfold isspace. lia. Qed.
Lemma hd_app (x : Z) s t : s <> [] -> hd x (s ++ t) = hd 0 s.
Proof. destruct s; [congruence|reflexivity]. Qed.

Lemma attr_step fuel ws n v r acc : spaces ws -> good_attr (n, v) -> ~ In n (map fst acc) ->
  attr_loop (S fuel) (G (ws ++ n ++ 61 :: 34 :: v ++ 34 :: r)) acc = attr_loop fuel (fin r) (acc ++ [(n, v)]).
Proof.
  intros W (E & N & V) NI. cbn [fst snd] in *. cbn [attr_loop].
  assert (NE : n <> []) by apply E.
  assert (PK : exists c, peek (G (ws ++ n ++ 61 :: 34 :: v ++ 34 :: r)) = (Some c, G (ws ++ n ++ 61 :: 34 :: v ++ 34 :: r))).
  { destruct ws as [|w ws]; [destruct n as [|a n]; [congruence|]|]; cbn; eauto. }
  destruct PK as [c ->].
  pose proof (xmatch_star ws [] 61 n (34 :: v ++ 34 :: r) [] W) as X. cbn [app] in X. rewrite X; clear X.
  2: { rewrite <- (app_nil_r n), hd_app by auto. apply edges_head; auto. }
  2: { intros I. rewrite Forall_forall in N. apply N in I. lia. }
  cbn [fin].
  pose proof (xmatch_star [] [34] 34 v r [] (Forall_nil _)) as Y. cbn [app] in Y. rewrite Y; clear Y.
  2: reflexivity. 2: { intros I. rewrite Forall_forall in V. apply V in I. lia. }
  rewrite trim_edges; auto. 2: { eapply Forall_impl; [|exact N]. cbn; lia. }
  rewrite add_attr_new by auto. reflexivity.
Qed.
Lemma nodup_app_notin (A : Type) (x : A) l r : NoDup (l ++ x :: r) -> ~ In x l.
Proof. intros N I. apply NoDup_remove_2 in N. apply N. apply in_or_app; auto. Qed.
Lemma attr_all : forall l acc fuel, (length l < fuel)%nat -> Forall good_attr l -> NoDup (map fst (acc ++ l)) ->
  attr_loop fuel (fin (flat_map write_attr l)) acc = Ok (acc ++ l).
Proof.
  induction l as [|[n v] l IH]; intros acc fuel F A N; (destruct fuel as [|fuel]; [lia|]).
  - cbn. now rewrite app_nil_r.
  - inversion A as [|? ? GA A']; subst. cbn [flat_map]. unfold write_attr at 1. cbn [fst snd fin app].
    pose proof GA as (_ & _ & GV). cbn [snd] in GV. rewrite write_string_attr by auto.
    replace (32 :: (n ++ 61 :: 34 :: v ++ [34]) ++ flat_map write_attr l) with ([32] ++ n ++ 61 :: 34 :: v ++ 34 :: flat_map write_attr l)
      by (cbn; rewrite <- !app_assoc; cbn; now rewrite <- !app_assoc).
    rewrite attr_step; auto. 2: repeat constructor. 2: { rewrite map_app in N. cbn in N. apply nodup_app_notin in N. auto. }
    rewrite IH; auto. + now rewrite <- app_assoc. + cbn in F; lia. + now rewrite <- app_assoc.
Qed.

Lemma split_space_app n r : Forall (fun c => isspace c = false) n -> match r with c :: _ => isspace c = true | [] => True end -> split_space (n ++ r) = (n, r).
Proof.
  intros N R. induction N as [|c n C N IH]; cbn.
  - destruct r as [|c r]; cbn; [auto|now rewrite R].
  - now rewrite C, IH.
Qed.
Lemma flat_map_length_ge l : (length l <= length (flat_map write_attr l))%nat.
Proof. induction l as [|a l IH]; cbn; [lia|]. rewrite !app_length. lia. Qed.

Lemma last_app (a b : list Z) : b <> [] -> last (a ++ b) 0 = last b 0.
Proof. intros N. induction a as [|x a IH]; cbn; [auto|]. destruct (a ++ b) eqn:E; auto. apply app_eq_nil in E. tauto. Qed.
Lemma attrs_last l : l <> [] -> last (flat_map write_attr l) 0 = 34.
Proof.
  induction l as [|a l IH]; [congruence|]. intros _. destruct l as [|b l].
  - cbn [flat_map]. rewrite app_nil_r. unfold write_attr.
    replace (32 :: fst a ++ [61; 34] ++ write_string true (snd a) ++ [34]) with ((32 :: fst a ++ [61; 34] ++ write_string true (snd a)) ++ [34]) by (cbn; now rewrite <- !app_assoc).
    rewrite last_app by discriminate. reflexivity.
  - change (flat_map write_attr (a :: b :: l)) with (write_attr a ++ flat_map write_attr (b :: l)). rewrite last_app; [apply IH; congruence|]. cbn. discriminate.
Qed.
(** no zero and no greater-than sign *)
Definition clean (c : Z) : Prop := 0 < c < 256 /\ c <> 62.
Lemma attrs_clean l : Forall good_attr l -> Forall clean (flat_map write_attr l).
Proof.
  induction 1 as [|[n v] l (E & N & V) H IH]; cbn [flat_map]; [constructor|]. unfold write_attr. cbn [fst snd app] in *. rewrite write_string_attr by auto.
  constructor; [unfold clean; lia|]. apply Forall_app; split; auto. apply Forall_app; split.
  - eapply Forall_impl; [|exact N]. unfold clean; cbn; lia.
  - do 2 (constructor; [unfold clean; lia|]). apply Forall_app; split; [|repeat constructor; lia].
    eapply Forall_impl; [|exact V]. unfold clean; cbn; lia.
Qed.
Lemma write_attrs_clean n l : good_name n -> Forall good_attr l -> Forall clean (write_attrs n l).
Proof.
  intros (_ & N & _) A. apply Forall_app; split; [|apply attrs_clean; auto]. eapply Forall_impl; [|exact N]. unfold clean; cbn; lia.
Qed.
Lemma write_attrs_edges n l : good_name n -> edges (write_attrs n l) /\ hd 0 (write_attrs n l) = hd 0 n /\ last (write_attrs n l) 0 <> 47.
Proof.
  intros ((NE & H & L) & _ & _ & _ & _ & X). unfold write_attrs. rewrite hd_app by auto.
  assert (Y : 33 <= last (n ++ flat_map write_attr l) 0 < 128 /\ last (n ++ flat_map write_attr l) 0 <> 47).
  { destruct l as [|a l]; [cbn; rewrite app_nil_r; auto|]. rewrite last_app by (cbn; discriminate). rewrite attrs_last by congruence. lia. }
  unfold edges. rewrite hd_app by auto. destruct Y. repeat split; auto; try lia. intros Z. apply app_eq_nil in Z. tauto.
Qed.

Lemma parse_attribute_ok n l : good_name n -> good_attrs l -> parse_attribute (write_attrs n l) [] = Ok (n, l).
Proof.
  intros GN [GA ND]. unfold parse_attribute.
  destruct (write_attrs_edges n l GN) as (E & _ & _). pose proof (write_attrs_clean n l GN GA) as C.
  rewrite trim_edges; auto. 2: { eapply Forall_impl; [|exact C]. unfold clean; cbn; lia. }
  unfold write_attrs. rewrite split_space_app.
  2: { eapply Forall_impl; [|apply GN]. unfold isspace; cbn; lia. }
  2: { destruct l; cbn; auto. }
  destruct l as [|[a v] l]; [reflexivity|]. inversion GA as [|? ? (EA & NA & VA) GA']; subst. cbn [fst snd] in *.
  assert (T : drop_space (flat_map write_attr ((a, v) :: l)) = a ++ 61 :: 34 :: v ++ 34 :: flat_map write_attr l).
  { cbn [flat_map]. unfold write_attr at 1. cbn [fst snd app]. rewrite write_string_attr by auto.
    cbn [drop_space]. change (isspace 32) with true. cbn iota. rewrite <- !app_assoc. cbn [app]. rewrite <- app_assoc. cbn [app].
    destruct EA as (NE & H & _). destruct a as [|x a]; [congruence|]. cbn in H. cbn [app drop_space]. replace (isspace x) with false by (unfold isspace; lia). reflexivity. }
  rewrite T. set (tx := a ++ 61 :: 34 :: v ++ 34 :: flat_map write_attr l).
  assert (TN : tx <> []) by (destruct a; discriminate).
  assert (TC : c_str tx = tx).
  { apply c_str_id. unfold tx. apply Forall_app; split; [eapply Forall_impl; [|exact NA]; cbn; lia|].
    do 2 (constructor; [lia|]). apply Forall_app; split; [eapply Forall_impl; [|exact VA]; cbn; lia|].
    constructor; [lia|]. eapply Forall_impl; [|apply attrs_clean; auto]. unfold clean; cbn; lia. }
  destruct tx as [|x tx'] eqn:TX; [congruence|]. rewrite TC, <- TX.
  unfold tx at 2. pose proof (attr_step (length tx) [] a v (flat_map write_attr l) [] (Forall_nil _)) as S. cbn [app] in S. rewrite S; [|split; auto|cbn; auto].
  rewrite attr_all; auto.
  - unfold tx. rewrite app_length. cbn [length]. rewrite app_length. cbn [length]. pose proof (flat_map_length_ge l). lia.
Qed.

(* ------------------------------------------------------------------ values *)
Definition innerE s buf v ns r := ev (fun n => inner n s buf v ns) r.
Definition parseE s buf r := ev (fun n => parse n s buf) r.

Lemma inner_char c r buf v ns R : c <> 38 -> c <> 60 -> innerE (G r) buf (v ++ [c]) ns R -> innerE (G (c :: r)) buf v ns R.
Proof.
  intros A B. apply ev_succ. intros n. cbn [inner peek st rest get]. replace (c =? 38) with false by lia. replace (c =? 60) with false by lia. reflexivity.
Qed.
Lemma inner_chars l : Forall (fun c => c <> 38 /\ c <> 60) l -> forall r buf v ns R, innerE (G r) buf (v ++ l) ns R -> innerE (G (l ++ r)) buf v ns R.
Proof.
  induction 1 as [|c l [A B] H IH]; intros r buf v ns R E; [rewrite app_nil_r in E; auto|]. cbn. apply inner_char; auto. apply IH. now rewrite <- app_assoc.
Qed.
Lemma inner_entity e c r buf v ns R : (forall x r v, parse_entity (G (e ++ x :: r)) v = (G (x :: r), v ++ [c])) -> hd 0 e = 38 -> r <> [] ->
  innerE (G r) buf (v ++ [c]) ns R -> innerE (G (e ++ r)) buf v ns R.
Proof.
  intros P H N. apply ev_succ. intros n. destruct e as [|h e]; [discriminate|]. cbn in H. subst h. destruct r as [|x r]; [congruence|].
  cbn [inner]. change (peek (G ((38 :: e) ++ x :: r))) with (Some 38, G ((38 :: e) ++ x :: r)). cbn iota beta. change (38 =? 38) with true. cbn iota. rewrite (P x r v). reflexivity.
Qed.
Lemma inner_write_char c r buf v ns R : 0 < c -> r <> [] -> innerE (G r) buf (v ++ [c]) ns R -> innerE (G (write_char false c ++ r)) buf v ns R.
Proof.
  intros C N E. unfold write_char.
  destruct (c =? 60) eqn:E1; [apply Z.eqb_eq in E1; subst; eapply inner_entity; [reflexivity|reflexivity|auto|exact E]|].
  destruct (c =? 62) eqn:E2; [apply Z.eqb_eq in E2; subst; eapply inner_entity; [reflexivity|reflexivity|auto|exact E]|].
  destruct (c =? 38) eqn:E3; [apply Z.eqb_eq in E3; subst; eapply inner_entity; [reflexivity|reflexivity|auto|exact E]|].
  destruct (c =? 39) eqn:E4; [apply Z.eqb_eq in E4; subst; eapply inner_entity; [reflexivity|reflexivity|auto|exact E]|].
  destruct (c =? 34) eqn:E5; [apply Z.eqb_eq in E5; subst; eapply inner_entity; [reflexivity|reflexivity|auto|exact E]|].
  apply inner_char; auto; lia.
Qed.
Lemma inner_write_string s r buf v ns R : Forall (fun c => 0 < c < 256) s -> r <> [] -> innerE (G r) buf (v ++ s) ns R -> innerE (G (write_string false s ++ r)) buf v ns R.
Proof.
  intros F N. unfold write_string. rewrite c_str_id by (eapply Forall_impl; [|exact F]; cbn; lia).
  revert v. induction F as [|c s C F IH]; intros v E; cbn [flat_map]; [rewrite app_nil_r in E; auto|].
  rewrite <- app_assoc. apply inner_write_char; [lia| |]. { intros X. apply app_eq_nil in X. tauto. } apply IH. now rewrite <- app_assoc.
Qed.
Lemma newline_blank p d : blank (newline p d).
Proof. destruct p; cbn; [|constructor]. constructor; [auto|]. induction d; cbn; constructor; auto. Qed.
Lemma inner_newline p d r buf v ns R : innerE (G r) buf (v ++ newline p d) ns R -> innerE (G (newline p d ++ r)) buf v ns R.
Proof. apply inner_chars. eapply Forall_impl; [|apply newline_blank]. cbn; lia. Qed.

(* ------------------------------------------------------------------ nodes *)
Definition done (s : stream) (r : list Z) : Prop := match r with [] => fst (peek s) = None | _ => s = G r end.
(** the text of a node without the line end before it *)
Definition body (p : bool) (d : nat) (n : node) : list Z :=
  match n with
  | Node name attrs value nodes =>
    let content := match Trim value with [] => false | _ => true end in
    60 :: write_attrs name attrs ++
    match content, nodes with
    | false, [] => [47; 62]
    | _, _ =>
      62 :: (if content then write_string false value else []) ++ flat_map (write p (S d)) nodes ++
      match nodes with [] => [] | _ => newline p d end ++ [60; 47] ++ name ++ [62]
    end
  end.
Lemma write_body p d n : write p d n = newline p d ++ body p d n.
Proof. destruct n. reflexivity. Qed.
(** what is read back *)
Fixpoint stretch (p : bool) (d : nat) (n : node) : node :=
  match n with
  | Node name attrs value nodes =>
    Node name attrs (value ++ match nodes with [] => [] | _ => flat_map (fun _ => newline p (S d)) nodes ++ newline p d end) (map (stretch p (S d)) nodes)
  end.

Definition head_ok (b : list Z) : Prop := exists c t, b = 60 :: c :: t /\ c <> 47 /\ c <> 33 /\ c <> 63.
Lemma body_head p d n : good_node n -> head_ok (body p d n).
Proof.
  intros H. inversion H as [name attrs value nodes GN GA GV F]; subst. destruct GN as ((NE & _) & _ & A & B & C & _).
  destruct name as [|c t]; [congruence|]. cbn in A, B, C. eexists c, _. split; [reflexivity|auto].
Qed.

Lemma inner_node b r buf v ns R s' buf' nd : head_ok b -> parseE (G (b ++ r)) buf (true, s', buf', nd) -> innerE s' buf' v (ns ++ [nd]) R -> innerE (G (b ++ r)) buf v ns R.
Proof.
  intros (c & t & -> & A & B & _) [n1 P] [n2 I]. exists (S (Nat.max n1 n2)). intros [|n] L; [lia|]. cbn [inner]. cbn [app peek st rest]. change (60 =? 38) with false. change (60 =? 60) with true. cbn iota.
  rewrite xmatch_no; [|reflexivity|cbn; replace (c =? 47) with false by lia; reflexivity].
  rewrite xmatch_no; [|reflexivity|cbn; replace (c =? 33) with false by lia; reflexivity].
  cbn [app] in P. rewrite P by lia. cbn [bind]. apply I. lia.
Qed.
Lemma inner_end name r buf v ns : ~ In 62 name -> innerE (G ([60; 47] ++ name ++ 62 :: r)) buf v ns (true, snd (peek (fin r)), name, v, ns).
Proof.
  intros N. eapply ev_succ; [|apply ev_const]. intros n. cbn [inner].
  cbn [app peek st rest]. change (60 =? 38) with false. change (60 =? 60) with true. cbn iota.
  pose proof (xmatch_star [] pEND 62 name r buf (Forall_nil _) eq_refl N) as X. unfold pEND in X at 1. cbn [app] in X. rewrite X.
  destruct (peek (fin r)); reflexivity.
Qed.
Lemma inner_stop s buf v ns : fst (peek s) = None -> innerE s buf v ns (false, snd (peek s), buf, v, ns).
Proof.
  intros P. eapply ev_succ; [|apply ev_const]. intros n. cbn [inner]. destruct (peek s) as [c s']. cbn in P. subst. reflexivity.
Qed.

Lemma good_name_in n : good_name n -> ~ In 62 n.
Proof. intros (_ & F & _) I. rewrite Forall_forall in F. apply F in I. lia. Qed.
Lemma clean_in l : Forall clean l -> ~ In 62 l.
Proof. intros F I. rewrite Forall_forall in F. apply F in I. unfold clean in I. lia. Qed.
Lemma good_name_trim n : good_name n -> Trim n = n.
Proof. intros (E & F & _). apply trim_edges; auto. eapply Forall_impl; [|exact F]. cbn; lia. Qed.

Fixpoint size (n : node) : nat := match n with Node _ _ _ nodes => S (list_sum (map size nodes)) end.

Definition parses p n := forall d r buf, exists s' buf', done s' r /\ parseE (G (body p d n ++ r)) buf (true, s', buf', stretch p d n).

(** reading child nodes *)
Lemma inner_nodes p : forall nodes, Forall good_node nodes -> Forall (parses p) nodes -> forall d r s buf v ns, done s (flat_map (write p d) nodes ++ r) ->
  exists s' buf', done s' r /\ forall R, innerE s' buf' (v ++ flat_map (fun _ => newline p d) nodes) (ns ++ map (stretch p d) nodes) R -> innerE s buf v ns R.
Proof.
  induction nodes as [|n nodes IH]; intros GN PN d r s buf v ns D.
  - cbn in D. exists s, buf. split; auto. intros R H. cbn in H. rewrite !app_nil_r in H. auto.
  - inversion GN as [|? ? G1 G2]; inversion PN as [|? ? P1 P2]; subst.
    cbn [flat_map] in D. rewrite write_body in D.
    assert (S0 : s = G (newline p d ++ body p d n ++ flat_map (write p d) nodes ++ r)).
    { rewrite <- !app_assoc in D. destruct (newline p d) as [|x nl] eqn:NL; [|exact D]. cbn [app] in *.
      destruct (body_head p d n G1) as (c & t & E & _). rewrite E in *. exact D. }
    subst s. clear D.
    destruct (P1 d (flat_map (write p d) nodes ++ r) buf) as (s1 & b1 & D1 & E1).
    destruct (IH G2 P2 d r s1 b1 (v ++ newline p d) (ns ++ [stretch p d n]) D1) as (s2 & b2 & D2 & E2).
    exists s2, b2. split; auto. intros R H. apply inner_newline. eapply inner_node; [apply body_head; auto|exact E1|].
    apply E2. cbn [flat_map map] in H. rewrite <- !app_assoc. exact H.
Qed.

Lemma parse_body p n : good_node n -> parses p n.
Proof.
  remember (size n) as k eqn:K. revert n K. induction k as [k IH] using lt_wf_ind. intros n K GD. subst k.
  inversion GD as [name attrs value nodes GN GA GV GC]; subst.
  assert (PN : Forall (parses p) nodes).
  { rewrite Forall_forall in *. intros m M. eapply IH; [|reflexivity|auto]. cbn [size].
    clear -M. enough (size m <= list_sum (map size nodes))%nat by lia. induction nodes as [|x nodes I]; [destruct M|]. change (list_sum (map size (x :: nodes))) with (size x + list_sum (map size nodes))%nat. destruct M as [->|M]; [lia|]. apply I in M. lia. }
  intros d r buf.
  destruct (write_attrs_edges name attrs GN) as (WE & WH & WL). pose proof (write_attrs_clean name attrs GN (proj1 GA)) as WC.
  pose proof (parse_attribute_ok name attrs GN GA) as PA. pose proof (good_name_trim name GN) as TN.
  assert (W : exists c t, write_attrs name attrs = c :: t /\ c <> 47 /\ c <> 33).
  { destruct WE as (NE & _). destruct (write_attrs name attrs) as [|c t]; [congruence|]. cbn in WH. exists c, t. destruct GN as (_ & _ & A & _ & B & _). rewrite <- WH in *. auto. }
  (* the start of parse *)
  assert (START : forall rest0 m, ~ In 62 m -> m <> [] -> hd 0 m <> 33 -> forall n0, comments (S n0) (G (60 :: m ++ 62 :: rest0)) buf = Ok (G (60 :: m ++ 62 :: rest0), buf) /\
    xmatch (G (60 :: m ++ 62 :: rest0)) buf [60] (Some [62]) = (true, fin rest0, m)).
  { intros rest0 m N NE H33 n0. split.
    - cbn [comments]. rewrite xmatch_no; auto. destruct m as [|c m]; [congruence|]. cbn in H33 |- *. replace (c =? 33) with false by lia. reflexivity.
    - pose proof (xmatch_star [] [60] 62 m rest0 buf (Forall_nil _) eq_refl N) as X. cbn [app] in X. exact X. }
  destruct W as (c0 & t0 & W & H47 & H33).
  cbn [body stretch]. set (Wt := write_attrs name attrs) in *.
  assert (LONG : forall txt sp, (txt = write_string false value \/ (txt = [] /\ value = [])) -> (nodes = [] -> sp = []) -> (nodes <> [] -> sp = newline p d) ->
    exists s' buf', done s' r /\ parseE (G ((60 :: Wt ++ 62 :: txt ++ flat_map (write p (S d)) nodes ++ sp ++ [60; 47] ++ name ++ [62]) ++ r)) buf
      (true, s', buf', Node name attrs (value ++ match nodes with [] => [] | _ => flat_map (fun _ => newline p (S d)) nodes ++ newline p d end) (map (stretch p (S d)) nodes))).
  { intros txt sp HT HS1 HS2.
    set (tail := [60; 47] ++ name ++ 62 :: r).
    assert (NN : forall a b c : list Z, a ++ b ++ c ++ tail <> []). { intros a b c Q. apply app_eq_nil in Q as [_ Q]. apply app_eq_nil in Q as [_ Q]. apply app_eq_nil in Q as [_ Q]. discriminate. }
    destruct (inner_nodes p nodes GC PN (S d) (sp ++ tail) (G (flat_map (write p (S d)) nodes ++ sp ++ tail)) Wt value []) as (s1 & b1 & D1 & E1).
    { destruct (flat_map (write p (S d)) nodes ++ sp ++ tail) eqn:Q; [|reflexivity]. destruct (NN [] _ _ Q). }
    assert (S1 : s1 = G (sp ++ tail)). { destruct (sp ++ tail) eqn:Q; [destruct (NN [] [] _ Q)|exact D1]. } subst s1.
    set (v' := value ++ match nodes with [] => [] | _ => flat_map (fun _ => newline p (S d)) nodes ++ newline p d end).
    assert (E : innerE (fin (txt ++ flat_map (write p (S d)) nodes ++ sp ++ tail)) Wt [] [] (true, snd (peek (fin r)), name, v', map (stretch p (S d)) nodes)).
    { replace (fin (txt ++ flat_map (write p (S d)) nodes ++ sp ++ tail)) with (G (txt ++ flat_map (write p (S d)) nodes ++ sp ++ tail)).
      2: { destruct (txt ++ flat_map (write p (S d)) nodes ++ sp ++ tail) eqn:Q; [|reflexivity]. destruct (NN _ _ _ Q). }
      assert (E2 : innerE (G (flat_map (write p (S d)) nodes ++ sp ++ tail)) Wt value [] (true, snd (peek (fin r)), name, v', map (stretch p (S d)) nodes)).
      { apply E1. cbn [app]. unfold v'. destruct nodes as [|n1 nodes'].
        - rewrite HS1 by auto. cbn [flat_map app map]. apply inner_end. apply good_name_in; auto.
        - rewrite HS2 by congruence. apply inner_newline. rewrite <- app_assoc. apply inner_end. apply good_name_in; auto. }
      destruct HT as [->|[-> ->]]; [|exact E2]. apply inner_write_string; [apply GV| |exact E2]. apply (NN []). }
    destruct E as [n1 E].
    exists (match r with [] => snd (peek (snd (peek (fin r)))) | _ => G r end), name. split. { destruct r; reflexivity. }
    exists (S (S n1)). intros [|[|n]] LE; [lia..|]. remember (S n) as m. cbn [parse].
    replace ((60 :: Wt ++ 62 :: txt ++ flat_map (write p (S d)) nodes ++ sp ++ [60; 47] ++ name ++ [62]) ++ r)
      with (60 :: Wt ++ 62 :: txt ++ flat_map (write p (S d)) nodes ++ sp ++ tail).
    2: { unfold tail. cbn [app]. f_equal. rewrite <- !app_assoc. f_equal. cbn [app]. f_equal. rewrite <- !app_assoc. f_equal. f_equal. f_equal. cbn [app]. rewrite <- app_assoc. reflexivity. }
    destruct (START (txt ++ flat_map (write p (S d)) nodes ++ sp ++ tail) Wt) with (n0 := n) as (Y & X).
    { eapply clean_in; eauto. } { apply WE. } { rewrite W; auto. }
    rewrite Heqm, Y. cbn [bind]. rewrite X. cbn [negb].
    replace (last Wt 0 =? 47) with false by lia. rewrite andb_false_r. rewrite PA. cbn [bind].
    rewrite (trim_edges Wt WE (Forall_impl _ (fun c H => proj1 H) WC)).
    rewrite E by lia. cbn [bind].
    destruct r as [|x r]; [reflexivity|]. cbn [fin peek st rest snd].
    rewrite TN. destruct (list_eq_dec Z.eq_dec name name); [reflexivity|congruence]. }
  destruct (Trim value) as [|tv tv'] eqn:TV; [destruct nodes as [|n1 nodes]|].
  - (* self-closing *)
    assert (V0 : value = []). { destruct value as [|x vl]; auto. exfalso. eapply trim_value; [exact GV|discriminate|exact TV]. } subst value.
    exists (fin r), Wt. split. { destruct r; reflexivity. }
    replace ((60 :: Wt ++ [47; 62]) ++ r) with (60 :: (Wt ++ [47]) ++ 62 :: r) by (cbn; now rewrite <- !app_assoc).
    exists 2%nat. intros [|[|n]] LE; [lia..|]. clear LE. remember (S n) as m. cbn [parse]. subst m.
    destruct (START r (Wt ++ [47])) with (n0 := n) as (Y & X).
    { intros I. apply in_app_or in I as [I|[I|[]]]; [|lia]. eapply clean_in; eauto. } { rewrite W; discriminate. } { rewrite W; cbn; auto. }
    rewrite Y. cbn [bind]. rewrite X. cbn [negb].
    rewrite last_app by discriminate. rewrite removelast_last. replace (length (Wt ++ [47%Z]) =? 0)%nat with false by (rewrite app_length; cbn; lia).
    cbn [negb andb last]. change (47 =? 47) with true. cbn iota. rewrite PA. cbn [bind map]. rewrite (trim_edges Wt WE (Forall_impl _ (fun c H => proj1 H) WC)). reflexivity.
  - (* nodes only *)
    assert (V0 : value = []). { destruct value as [|x vl]; auto. exfalso. eapply trim_value; [exact GV|discriminate|exact TV]. } subst value.
    apply (LONG [] (newline p d)); [auto|discriminate|auto].
  - (* a value *)
    apply (LONG (write_string false value) match nodes with [] => [] | _ => newline p d end); [auto|intros ->; auto|destruct nodes; [congruence|auto]].
Qed.

(* ------------------------------------------------------------------ files *)
Lemma inner_fuel (text : list Z) s buf v ns r : (mu s <= S (length text))%nat -> innerE s buf v ns r -> inner (length text + 4) s buf v ns = Ok r.
Proof.
  intros M [n E]. destruct (total_all (length text + 4)) as [_ T]. destruct (T s buf v ns ltac:(lia)) as (f & s' & b' & v' & ns' & X & _).
  rewrite X. apply (inner_le _ (Nat.max n (length text + 4))) in X; [|lia]. rewrite E in X by lia. congruence.
Qed.
Lemma inner_file p nodes : Forall good_node nodes -> forall s buf v ns, done s (flat_map (write p 0) nodes) ->
  exists f s' buf', innerE s buf v ns (f, s', buf', v ++ flat_map (fun _ => newline p 0) nodes, ns ++ map (stretch p 0) nodes).
Proof.
  intros F s buf v ns D.
  destruct (inner_nodes p nodes F) with (d := O) (r := @nil Z) (s := s) (buf := buf) (v := v) (ns := ns) as (s' & b' & D' & E).
  { eapply Forall_impl; [|exact F]. apply parse_body. } { now rewrite app_nil_r. }
  do 3 eexists. apply E. apply inner_stop. exact D'.
Qed.
Lemma done_fin r : done (fin r) r.
Proof. destruct r; reflexivity. Qed.

(** the text after the declaration *)
Lemma read_decl p name attrs nodes value : good_name name -> good_attrs attrs -> attrs <> [] -> Forall good_node nodes ->
  read (write_file p (Node name attrs value nodes)) = Ok (Node name attrs (flat_map (fun _ => newline p 0) nodes) (map (stretch p 0) nodes)).
Proof.
  intros GN GA NA F. unfold write_file. set (body := flat_map (write p 0) nodes).
  replace (match attrs with [] => [] | _ => pDECL ++ write_attrs name attrs ++ qDECL end ++ body) with (60 :: 63 :: write_attrs name attrs ++ 63 :: 62 :: body).
  2: { destruct attrs; [congruence|]. unfold pDECL, qDECL. cbn [app]. now rewrite <- app_assoc. }
  destruct (write_attrs_edges name attrs GN) as (WE & WH & WL). pose proof (write_attrs_clean name attrs GN (proj1 GA)) as WC.
  set (W := write_attrs name attrs) in *. set (text := 60 :: 63 :: W ++ 63 :: 62 :: body).
  assert (X : xmatch (G text) [] pDECL (Some qDECL) = (true, fin body, W)).
  { unfold xmatch, text. cbn [st rest]. rewrite eat_space_at by reflexivity. cbn [st rest].
    assert (PX : match_prefix pDECL (60 :: 63 :: W ++ 63 :: 62 :: body) = Some (true, G (W ++ 63 :: 62 :: body))).
    { apply (prefix_app pDECL (W ++ 63 :: 62 :: body)). destruct W; discriminate. }
    rewrite PX. cbn [st rest].
    rewrite suffix2; auto.
    - cbn [app length Nat.eqb]. change 2%nat with (length [63; 62]) at 1. unfold qDECL. cbn [length Nat.eqb]. now rewrite firstn_app1.
    - eapply Forall_impl; [|exact WC]. unfold clean; cbn; lia.
    - unfold W. unfold write_attrs. rewrite last_app by (destruct attrs; [congruence|discriminate]). rewrite attrs_last; auto. lia. }
  unfold read. rewrite X. unfold W at 1. rewrite parse_attribute_ok by auto. cbn [bind].
  destruct (inner_file p nodes F (fin body) (Trim W) [] []) as (f & s' & b' & E); [apply done_fin|].
  rewrite (inner_fuel text _ _ _ _ _) with (2 := E). 2: { unfold text. destruct body; unfold mu; cbn; rewrite ?app_length; cbn; lia. }
  reflexivity.
Qed.
(** without a declaration *)
Lemma read_nodecl p nodes value : Forall good_node nodes -> exists sp, blank sp /\ (p = false -> sp = []) /\
  read (write_file p (Node [120; 109; 108] [] value nodes)) = Ok (Node [120; 109; 108] [] sp (map (stretch p 0) nodes)).
Proof.
  intros F. unfold write_file. cbn [app]. destruct nodes as [|n nodes].
  - exists []. split; [constructor|]. split; [auto|]. reflexivity.
  - inversion F as [|? ? F1 F2]; subst. exists (flat_map (fun _ => newline p 0) nodes).
    split. { apply Forall_flat_map. apply Forall_forall. intros. apply newline_blank. }
    split. { intros ->. clear. induction nodes; auto. }
    cbn [flat_map]. rewrite write_body. rewrite <- app_assoc. set (text := newline p 0 ++ body p 0 n ++ flat_map (write p 0) nodes).
    destruct (body_head p 0 n F1) as (c & t & E & A & B & C).
    assert (X : xmatch (G text) [] pDECL (Some qDECL) = (false, G (body p 0 n ++ flat_map (write p 0) nodes), [])).
    { unfold xmatch, text. cbn [st rest]. rewrite eat_space_ws. 2: { destruct p; repeat constructor. }
      rewrite E. cbn [app]. rewrite eat_space_at by reflexivity. cbn [st rest match_prefix pDECL]. change (60 =? 60) with true. replace (c =? 63) with false by lia. reflexivity. }
    unfold read. rewrite X. cbn [bind].
    destruct (parse_body p n F1 0%nat (flat_map (write p 0) nodes) []) as (s1 & b1 & D1 & E1).
    destruct (inner_file p nodes F2 s1 b1 [] [stretch p 0 n]) as (f & s' & b' & E2); auto.
    rewrite (inner_fuel text _ _ _ _ (f, s', b', flat_map (fun _ => newline p 0) nodes, map (stretch p 0) (n :: nodes))); [reflexivity| |].
    + unfold text, mu. cbn [st rest]. rewrite !app_length. lia.
    + eapply inner_node; [apply body_head; auto|exact E1|]. exact E2.
Qed.
