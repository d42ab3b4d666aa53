(** * C101-C107: the XML reader and writer *)
From Coq Require Import ZArith List Bool Lia ZifyBool ZifyNat.
From Verif Require Import Common BitUtil UtfSpec BitUtilProofs MiscBitProofs JSON JSONProofs Str XML XMLSpec XMLProofs XMLRound.
Import ListNotations.
Local Open Scope Z_scope.

Definition xml : list Z := [120; 109; 108].
(** a file: with a declaration that has attributes, or without a declaration *)
Definition good_file (name : list Z) (attrs : list (list Z * list Z)) (nodes : list node) : Prop :=
  (attrs = [] /\ name = xml \/ attrs <> [] /\ good_name name /\ good_attrs attrs) /\ Forall good_node nodes.

Lemma node_ind' (P : node -> Prop) : (forall name attrs value nodes, Forall P nodes -> P (Node name attrs value nodes)) -> forall n, P n.
Proof.
  intros H. fix F 1. intros [name attrs value nodes]. apply H. induction nodes; constructor; auto.
Qed.
Lemma stretch_false n : forall d, stretch false d n = n.
Proof.
  induction n as [name attrs value nodes IH] using node_ind'. intros d. cbn [stretch newline].
  assert (E : flat_map (fun _ : node => @nil Z) nodes = []) by (clear; induction nodes; auto).
  rewrite E. assert (M : map (stretch false (S d)) nodes = nodes). { clear E. induction IH as [|x l A B I]; cbn; [auto|]. now rewrite A, I. }
  rewrite M. destruct nodes; cbn; now rewrite app_nil_r.
Qed.
Lemma map_stretch_false l d : map (stretch false d) l = l.
Proof. induction l; cbn; [auto|]. now rewrite stretch_false, IHl. Qed.
Lemma stretch_same p n : forall d, same_tree n (stretch p d n).
Proof.
  induction n as [name attrs value nodes IH] using node_ind'. intros d. cbn [stretch]. constructor.
  - induction IH; constructor; auto.
  - destruct nodes; [constructor|]. apply Forall_app; split; [|apply newline_blank]. apply Forall_flat_map, Forall_forall. intros. apply newline_blank.
  - intros ->. reflexivity.
Qed.

(** Every tree whose names and values avoid the characters listed in XMLSpec.v is read back exactly from the text that
    Write without pretty printing makes of it.  Missing: the trees with other characters in them, see the next two
    theorems. *)
Theorem C101_XML_roundtrip_partial : forall name attrs nodes, good_file name attrs nodes ->
  read (write_file false (Node name attrs [] nodes)) = Ok (Node name attrs [] nodes).
Proof.
  intros name attrs nodes [[[-> ->]|(NE & GN & GA)] F].
  - unfold xml. destruct (read_nodecl false nodes [] F) as (sp & _ & S & ->). rewrite S by auto. now rewrite map_stretch_false.
  - rewrite read_decl by auto. rewrite map_stretch_false. assert (E : flat_map (fun _ : node => newline false 0) nodes = []) by (clear; induction nodes; auto). now rewrite E.
Qed.
Print Assumptions C101_XML_roundtrip_partial.

Lemma sample_good_name c : 65 <= c < 128 -> good_name [c].
Proof. intros H. unfold good_name, edges. cbn. repeat split; try lia; try discriminate. repeat constructor; lia. Qed.

(** <b c="x y"><d>1 &lt; 2</d><e/></b> *)
Definition sample : list node :=
  [Node [98] [([99], [120; 32; 121])] [] [Node [100] [] [49; 32; 60; 32; 50] []; Node [101] [] [] []]].
Lemma sample_good : Forall good_node sample.
Proof.
  constructor; [|constructor]. constructor.
  - apply sample_good_name; lia.
  - split; [|repeat constructor; cbn; auto]. constructor; [|constructor]. unfold good_attr, edges. cbn. repeat split; try lia; try discriminate; repeat constructor; lia.
  - split; [constructor|auto].
  - constructor; [|constructor; [|constructor]].
    + constructor; [apply sample_good_name; lia|split; constructor| |constructor]. split; [repeat constructor; lia|]. right; left. left. lia.
    + constructor; [apply sample_good_name; lia|split; constructor|split; [constructor|auto]|constructor].
Qed.
Example C101_example : good_file [97] [([99], [34 + 1])] sample /\ good_file xml [] sample /\
  write_file false (Node xml [] [] sample) =
  [60; 98; 32; 99; 61; 34; 120; 32; 121; 34; 62; 60; 100; 62; 49; 32; 38; 108; 116; 59; 32; 50; 60; 47; 100; 62; 60; 101; 47; 62; 60; 47; 98; 62].
Proof.
  split; [|split; [|reflexivity]].
  - split; [right|apply sample_good]. split; [discriminate|]. split; [apply sample_good_name; lia|]. split; [|repeat constructor; cbn; auto].
    constructor; [|constructor]. unfold good_attr, edges. cbn. repeat split; try lia; try discriminate; repeat constructor; lia.
  - split; [left; auto|apply sample_good].
Qed.

(** A quotation mark in an attribute is written as &quot; which is not decoded when it is read *)
Theorem C101_XML_quote_refuted : exists name an av,
  good_name name /\ good_name an /\ Forall (fun c => 33 <= c < 128 /\ c <> 62) av /\
  read (write_file false (Node xml [] [] [Node name [(an, av)] [] []])) = Ok (Node xml [] [] [Node name [(an, eQUOT)] [] []]) /\ av <> eQUOT.
Proof.
  exists [97], [98], [34]. split; [apply sample_good_name; lia|]. split; [apply sample_good_name; lia|]. split; [repeat constructor; lia|]. split; [reflexivity|discriminate].
Qed.
Print Assumptions C101_XML_quote_refuted.

(** A greater-than sign in an attribute ends the tag: the rest of the attribute becomes the value of the node *)
Theorem C101_XML_greater_refuted : exists name an av f,
  good_name name /\ good_name an /\ Forall (fun c => 33 <= c < 128 /\ c <> 34) av /\
  read (write_file false (Node xml [] [] [Node name [(an, av)] [] []])) = Ok f /\ f <> Node xml [] [] [Node name [(an, av)] [] []].
Proof.
  exists [97], [98], [99; 62; 100]. eexists. split; [apply sample_good_name; lia|]. split; [apply sample_good_name; lia|].
  split; [repeat constructor; lia|]. split; [vm_compute; reflexivity|]. discriminate.
Qed.
Print Assumptions C101_XML_greater_refuted.

(** With pretty printing, the tree read back has the same nodes, names, attributes and values in the same places, except
    that line ends and tabs are added after the value of nodes that have child nodes *)
Theorem C102_XML_pretty : forall name attrs nodes, good_file name attrs nodes ->
  exists sp nodes', read (write_file true (Node name attrs [] nodes)) = Ok (Node name attrs sp nodes') /\ blank sp /\ Forall2 same_tree nodes nodes'.
Proof.
  intros name attrs nodes [H F].
  assert (S : Forall2 same_tree nodes (map (stretch true 0) nodes)). { clear. induction nodes; constructor; auto. apply stretch_same. }
  destruct H as [[-> ->]|(NE & GN & GA)].
  - unfold xml. destruct (read_nodecl true nodes [] F) as (sp & B & _ & E). eauto.
  - do 2 eexists. split; [apply read_decl; auto|]. split; auto. apply Forall_flat_map, Forall_forall. intros. apply newline_blank.
Qed.
Print Assumptions C102_XML_pretty.

Example C102_example : good_file xml [] sample /\
  read (write_file true (Node xml [] [] sample)) =
  Ok (Node xml [] [] [Node [98] [([99], [120; 32; 121])] [10; 9; 10; 9; 10] [Node [100] [] [49; 32; 60; 32; 50] []; Node [101] [] [] []]]).
Proof. split; [split; [left; auto|apply sample_good]|vm_compute; reflexivity]. Qed.

(** Reading ends for every text, however malformed: no loop of the reader repeats for ever, and the depth of the
    recursion and the number of repetitions on one level are at most the length of the text and 4 *)
Theorem C103_XML_read_ends : forall text, exists f, read text = Ok f.
Proof. exact read_total. Qed.
Print Assumptions C103_XML_read_ends.

(** "<a><!--", a text with an end tag that does not belong to anything, and a lone less-than sign *)
Example C103_example :
  read [60; 97; 62; 60; 33; 45; 45] = Ok (Node xml [] [] [Node [97] [] [255] []]) /\
  read [60; 97; 62; 60; 47; 98; 62; 120] = Ok (Node xml [] [47; 98; 62; 120] [Node [97] [] [] []]) /\
  read [60] = Ok (Node xml [] [] []).
Proof. vm_compute. auto. Qed.

(* ------------------------------------------------------------------ entities *)
(** the value of a digit, decimal or hexadecimal *)
Definition digit (c : Z) : Z := if c <? 58 then c - 48 else if c <? 71 then c - 55 else c - 87.
Definition is_dec (c : Z) : Prop := 48 <= c <= 57.
Definition is_hex (c : Z) : Prop := 48 <= c <= 57 \/ 65 <= c <= 70 \/ 97 <= c <= 102.
Definition numeral (base : Z) (ds : list Z) : Z := fold_left (fun a c => base * a + digit c) ds 0.
(** what the text between the tags is made of: characters, the five named entities, numbered characters, comments *)
Inductive piece := Raw (c : Z) | Lt | Gt | Amp | Apos | Quot | Dec (ds : list Z) | Hex (ds : list Z) | Comment (t : list Z).
Definition spelled (p : piece) : list Z :=
  match p with
  | Raw c => [c]
  | Lt => [38; 108; 116; 59] | Gt => [38; 103; 116; 59] | Amp => [38; 97; 109; 112; 59]
  | Apos => [38; 97; 112; 111; 115; 59] | Quot => [38; 113; 117; 111; 116; 59]
  | Dec ds => [38; 35] ++ ds ++ [59]
  | Hex ds => [38; 35; 120] ++ ds ++ [59]
  | Comment t => [60; 33; 45; 45] ++ t ++ [45; 45; 62]
  end.
(** the text of a comment has no two '-' beside each other, and none at its end (as XML demands) *)
Fixpoint comment_text (t : list Z) : Prop :=
  match t with [] => True | c :: t => (c = 45 -> exists d t', t = d :: t' /\ d <> 45) /\ comment_text t end.
Definition meaning (p : piece) : list Z :=
  match p with
  | Raw c => [c]
  | Lt => [60] | Gt => [62] | Amp => [38] | Apos => [39] | Quot => [34]
  | Dec ds => utf8 (numeral 10 ds)
  | Hex ds => utf8 (numeral 16 ds)
  | Comment _ => []
  end.
Definition good_piece (p : piece) : Prop :=
  match p with
  | Raw c => 0 <= c < 256 /\ c <> 38 /\ c <> 60
  | Dec ds => ds <> [] /\ Forall is_dec ds /\ scalar (numeral 10 ds) /\ numeral 10 ds <> 0x10FFFF
  | Hex ds => ds <> [] /\ Forall is_hex ds /\ scalar (numeral 16 ds) /\ numeral 16 ds <> 0x10FFFF
  | Comment t => comment_text t
  | _ => True
  end.

Lemma hexval_digit c : is_hex c -> hexval c = Some (digit c) /\ 0 <= digit c < 16 /\ isspace c = false /\ c <> 0 /\ c <> 59 /\ c <> 45 /\ c <> 43 /\ c <> 120 /\ c <> 88.
Proof.
  unfold is_hex, hexval, digit, isdigit, isspace. intros H.
  destruct ((48 <=? c) && (c <=? 57)) eqn:A; [replace (c <? 58) with true by lia; repeat split; lia|].
  destruct ((97 <=? c) && (c <=? 102)) eqn:B; [replace (c <? 58) with false by lia; replace (c <? 71) with false by lia; repeat split; lia|].
  replace ((65 <=? c) && (c <=? 70)) with true by lia. replace (c <? 58) with false by lia; replace (c <? 71) with true by lia. repeat split; lia.
Qed.
Lemma to_digits_fold base ds : Forall (fun c => is_hex c /\ digit c < base) ds -> forall a, to_digits base ds a = fold_left (fun a c => base * a + digit c) ds a.
Proof.
  induction 1 as [|c ds [H L] F IH]; intros a; cbn; [auto|]. destruct (hexval_digit c H) as (-> & _). replace (digit c <? base) with true by lia. apply IH.
Qed.
Lemma strtol_numeral base ds : ds <> [] -> Forall (fun c => is_hex c /\ digit c < base) ds -> 0 <= numeral base ds <= 0x10FFFF -> sgn 32 (strtol base (c_str ds)) = numeral base ds.
Proof.
  intros NE F R. rewrite c_str_id. 2: { eapply Forall_impl; [|exact F]. cbn. intros c [H _]. apply hexval_digit in H. tauto. }
  assert (P : to_prefixed base ds = numeral base ds).
  { unfold to_prefixed, numeral. assert (Q : to_digits base ds 0 = numeral base ds) by (apply to_digits_fold; auto).
    destruct ds as [|a [|b [|c t]]]; auto.
    1-2: destruct a as [|a|a]; try apply Q; do 6 (try destruct a as [a|a|]; try apply Q).
    inversion F as [|? ? Fa F1]; subst. inversion F1 as [|? ? [Fb _] F2]; subst. apply hexval_digit in Fb.
    replace ((b =? 120) || (b =? 88)) with false by lia. rewrite andb_false_r. cbn [andb].
    destruct a as [|a|a]; try apply Q; do 6 (try destruct a as [a|a|]; try apply Q). }
  unfold strtol, to_number. destruct ds as [|c t]; [congruence|]. inversion F as [|? ? [Fc _] F1]; subst. apply hexval_digit in Fc as (_ & _ & S & _ & _ & A & B & _).
  cbn [drop_space]. rewrite S. replace (c =? 45) with false by lia. replace (c =? 43) with false by lia. rewrite P.
  rewrite Z.min_r by lia. rewrite Z.max_r by lia. unfold sgn, wrap. rewrite Z.mod_small by lia. replace (numeral base (c :: t) <? 2 ^ (32 - 1)) with true by lia. auto.
Qed.
Lemma parse_entity_dec ds x r v : ds <> [] -> Forall is_dec ds -> scalar (numeral 10 ds) -> numeral 10 ds <> 0x10FFFF ->
  parse_entity (G ([38; 35] ++ ds ++ 59 :: x :: r)) v = (G (x :: r), v ++ utf8 (numeral 10 ds)).
Proof.
  intros NE F S NM. unfold parse_entity. destruct ds as [|c t] eqn:D; [congruence|]. cbn [app].
  do 6 (rewrite xmatch_no; [|reflexivity|cbn; try reflexivity]).
  2: { inversion F; subst. unfold is_dec in *. replace (c =? 120) with false by lia. reflexivity. }
  pose proof (xmatch_star [] pDEC 59 ds (x :: r) [] (Forall_nil _) eq_refl) as X. subst ds. unfold pDEC in X at 1. cbn [app] in X. rewrite X.
  2: { intros I. rewrite Forall_forall in F. apply F in I. unfold is_dec in I. lia. }
  cbn [fin]. rewrite strtol_numeral; auto.
  - rewrite OutputUnicode_ok; auto. unfold scalar in S. lia.
  - eapply Forall_impl; [|exact F]. unfold is_dec, is_hex, digit. cbn. intros a A. replace (a <? 58) with true by lia. lia.
  - unfold scalar in S. lia.
Qed.
Lemma parse_entity_hex ds x r v : ds <> [] -> Forall is_hex ds -> scalar (numeral 16 ds) -> numeral 16 ds <> 0x10FFFF ->
  parse_entity (G ([38; 35; 120] ++ ds ++ 59 :: x :: r)) v = (G (x :: r), v ++ utf8 (numeral 16 ds)).
Proof.
  intros NE F S NM. unfold parse_entity. cbn [app].
  do 5 (rewrite xmatch_no; [|reflexivity|reflexivity]).
  pose proof (xmatch_star [] pHEX 59 ds (x :: r) [] (Forall_nil _) eq_refl) as X. unfold pHEX in X at 1. cbn [app] in X. rewrite X.
  2: { intros I. rewrite Forall_forall in F. apply F in I. unfold is_hex in I. lia. }
  cbn [fin]. rewrite strtol_numeral; auto.
  - rewrite OutputUnicode_ok; auto. unfold scalar in S. lia.
  - eapply Forall_impl; [|exact F]. cbn. intros a A. split; auto. apply hexval_digit in A. lia.
  - unfold scalar in S. lia.
Qed.
Lemma inner_entity' e m r buf v ns R : (forall x r v, parse_entity (G (38 :: e ++ x :: r)) v = (G (x :: r), v ++ m)) -> r <> [] ->
  innerE (G r) buf (v ++ m) ns R -> innerE (G (38 :: e ++ r)) buf v ns R.
Proof.
  intros P N. apply ev_succ. intros n. destruct r as [|x r]; [congruence|].
  cbn [inner]. change (peek (G (38 :: e ++ x :: r))) with (Some 38, G (38 :: e ++ x :: r)). cbn iota beta. change (38 =? 38) with true. cbn iota. rewrite (P x r v). reflexivity.
Qed.
Lemma comment_suffix x r : forall n t out, (length t <= n)%nat -> comment_text t -> match_suffix qCOMMENT (t ++ 45 :: 45 :: 62 :: x :: r) 0 out = (3%nat, out ++ t ++ qCOMMENT, G (x :: r)).
Proof.
  induction n as [|n IH]; intros t out L C.
  - destruct t; [|cbn in L; lia]. cbn. rewrite <- !app_assoc. reflexivity.
  - destruct t as [|c t]; [cbn; rewrite <- !app_assoc; reflexivity|]. destruct C as [C1 C2]. cbn [app match_suffix length qCOMMENT Nat.eqb nth]. destruct (Z.eqb_spec c 45) as [->|NC].
    + destruct (C1 eq_refl) as (d & t' & -> & ND). cbn [app match_suffix length qCOMMENT Nat.eqb nth]. replace (d =? 45) with false by lia. destruct C2 as [_ C2]. change [45; 45; 62] with qCOMMENT. rewrite IH; [|cbn in L; lia|exact C2]. rewrite <- !app_assoc. reflexivity.
    + change [45; 45; 62] with qCOMMENT. rewrite IH; [|cbn in L; lia|exact C2]. rewrite <- !app_assoc. reflexivity.
Qed.
Lemma inner_comment t r buf v ns R : comment_text t -> r <> [] -> innerE (G r) t v ns R -> innerE (G ([60; 33; 45; 45] ++ t ++ [45; 45; 62] ++ r)) buf v ns R.
Proof.
  intros C N. apply ev_succ. intros n. destruct r as [|x r]; [congruence|]. cbn [inner app]. cbn [peek st rest]. change (60 =? 38) with false. change (60 =? 60) with true. cbn iota.
  rewrite xmatch_no by reflexivity. cbn iota beta. assert (X : xmatch (G (60 :: 33 :: 45 :: 45 :: t ++ 45 :: 45 :: 62 :: x :: r)) buf pCOMMENT (Some qCOMMENT) = (true, G (x :: r), t)).
  { unfold xmatch. cbn [st rest]. rewrite eat_space_at by reflexivity. cbn [st rest pCOMMENT match_prefix Z.eqb Pos.eqb]. destruct (t ++ 45 :: 45 :: 62 :: x :: r) as [|y l] eqn:E; [destruct t; discriminate|]. cbn [match_prefix st rest]. rewrite <- E. rewrite (comment_suffix x r (length t)) by auto. cbn [app length qCOMMENT Nat.eqb].
    assert (FT : firstn (length (t ++ [45; 45; 62]) - 3) (t ++ [45; 45; 62]) = t). { rewrite app_length. cbn [length]. replace (length t + 3 - 3)%nat with (length t) by lia. rewrite firstn_app, firstn_all. replace (length t - length t)%nat with 0%nat by lia. apply app_nil_r. } unfold qCOMMENT. cbn [app length Nat.eqb]. now rewrite FT. }
  rewrite X. reflexivity.
Qed.
Lemma inner_piece p r buf v ns R : good_piece p -> r <> [] -> (forall buf, innerE (G r) buf (v ++ meaning p) ns R) -> innerE (G (spelled p ++ r)) buf v ns R.
Proof.
  intros GP N E0. assert (E := E0 buf). destruct p; cbn [spelled meaning good_piece] in *.
  1: { apply inner_char; [lia..|exact E]. }
  1: apply (inner_entity' [108; 116; 59] _ r) in E; auto.
  1: apply (inner_entity' [103; 116; 59] _ r) in E; auto.
  1: apply (inner_entity' [97; 109; 112; 59] _ r) in E; auto.
  1: apply (inner_entity' [97; 112; 111; 115; 59] _ r) in E; auto.
  1: apply (inner_entity' [113; 117; 111; 116; 59] _ r) in E; auto.
  - destruct GP as (A & B & C & D). cbn [app]. rewrite <- app_assoc. cbn [app]. 
    apply (inner_entity' (35 :: ds ++ [59]) (utf8 (numeral 10 ds)) r) in E; auto.
    + cbn [app] in E. rewrite <- app_assoc in E. exact E.
    + intros. cbn [app]. rewrite <- app_assoc. apply parse_entity_dec; auto.
  - destruct GP as (A & B & C & D). cbn [app]. rewrite <- app_assoc. cbn [app]. 
    apply (inner_entity' (35 :: 120 :: ds ++ [59]) (utf8 (numeral 16 ds)) r) in E; auto.
    + cbn [app] in E. rewrite <- app_assoc in E. exact E.
    + intros. cbn [app]. rewrite <- app_assoc. apply parse_entity_hex; auto.
  - rewrite <- !app_assoc. apply inner_comment; auto. specialize (E0 t). now rewrite app_nil_r in E0.
Qed.

(** Every text between two tags made of characters, named entities and numbered characters (decimal or hexadecimal,
    any number of leading zeros) is read as the characters it stands for, numbered characters in UTF-8.  The named
    entities and numbered characters follow each other in any order.  Comments between them are skipped.  Missing:
    U+10FFFF, see C62. *)
Theorem C104_XML_entities_partial : forall name ps, good_name name -> Forall good_piece ps ->
  read ([60] ++ name ++ [62] ++ flat_map spelled ps ++ [60; 47] ++ name ++ [62]) = Ok (Node xml [] [] [Node name [] (flat_map meaning ps) []]).
Proof.
  intros name ps GN GP. unfold read. set (text := [60] ++ name ++ [62] ++ flat_map spelled ps ++ [60; 47] ++ name ++ [62]).
  assert (NM' : exists c0 t0, name = c0 :: t0) by (destruct name as [|c0 t0]; [destruct GN as ((NE & _) & _); congruence|eauto]).
  destruct NM' as (c0 & t0 & NM).
  assert (H : c0 <> 47 /\ c0 <> 63 /\ c0 <> 33). { destruct GN as (_ & _ & A & B & C & _). rewrite NM in A, B, C. cbn in A, B, C. auto. }
  assert (T : exists t, text = 60 :: c0 :: t) by (unfold text; rewrite NM; cbn; eauto). destruct T as [t T].
  assert (X : xmatch (G text) [] pDECL (Some qDECL) = (false, G text, [])).
  { rewrite T. apply xmatch_no; [reflexivity|]. cbn. replace (c0 =? 63) with false by lia. reflexivity. }
  rewrite X. cbn [bind].
  set (tl := [60; 47] ++ name ++ [62]) in *.
  assert (V : forall buf v, innerE (G (flat_map spelled ps ++ tl)) buf v [] (true, snd (peek (fin [])), name, v ++ flat_map meaning ps, [])).
  { clear X T. clearbody text. induction GP as [|p ps P GP IH]; intros buf v; cbn [flat_map].
    - rewrite app_nil_r. apply inner_end. apply good_name_in; auto.
    - rewrite <- app_assoc. apply inner_piece; auto.
      + intros Q. apply app_eq_nil in Q as [_ Q]. discriminate.
      + intros buf'. rewrite app_assoc. apply IH. }
  assert (PE : parseE (G text) [] (true, snd (peek (snd (peek (fin [])))), name, Node name [] (flat_map meaning ps) [])).
  { destruct (V name []) as [n1 E]. exists (S (S n1)). intros [|[|n]] LE; [lia..|]. remember (S n) as m. cbn [parse].
    assert (C : comments m (G text) [] = Ok (G text, [])). { rewrite Heqm. cbn [comments]. rewrite T. rewrite xmatch_no; [reflexivity..|]. cbn. replace (c0 =? 33) with false by lia. reflexivity. }
    rewrite C. cbn [bind].
    pose proof (xmatch_star [] [60] 62 name (flat_map spelled ps ++ tl) [] (Forall_nil _) eq_refl (good_name_in name GN)) as Y. cbn [app] in Y.
    unfold text. cbn [app]. rewrite Y. cbn [negb].
    destruct GN as (ED & FN & _ & _ & _ & L). replace (last name 0 =? 47) with false by lia. rewrite andb_false_r.
    assert (PA : parse_attribute name [] = Ok (name, [])).
    { pose proof (parse_attribute_ok name []) as Q. unfold write_attrs in Q. cbn [flat_map] in Q. rewrite app_nil_r in Q. apply Q; [|split; constructor]. repeat split; auto; try apply ED; try lia. all: apply ED || (rewrite NM; cbn; lia). }
    rewrite PA. cbn [bind]. assert (TN : Trim name = name). { apply trim_edges; auto. eapply Forall_impl; [|exact FN]. cbn; lia. } rewrite TN.
    replace (fin (flat_map spelled ps ++ tl)) with (G (flat_map spelled ps ++ tl)) by (destruct (flat_map spelled ps); reflexivity).
    rewrite E by lia. reflexivity. }
  rewrite (inner_fuel text _ _ _ _ (false, snd (peek (snd (peek (snd (peek (fin [])))))), name, [], [Node name [] (flat_map meaning ps) []])); [reflexivity|unfold mu; cbn; lia|].
  rewrite T in *. rewrite <- (app_nil_r (60 :: c0 :: t)) in *.
  eapply inner_node; [exists c0, t; split; [reflexivity|lia]|exact PE|]. apply inner_stop. reflexivity.
Qed.
Print Assumptions C104_XML_entities_partial.

(** <a>x&lt;&#8364;&#x20aC;<!--a-b<--></a> *)
Example C104_example : good_name [97] /\ Forall good_piece [Raw 120; Lt; Dec [56; 51; 54; 52]; Hex [48; 50; 48; 97; 67]; Comment [97; 45; 98; 60]] /\
  flat_map meaning [Raw 120; Lt; Dec [56; 51; 54; 52]; Hex [48; 50; 48; 97; 67]; Comment [97; 45; 98; 60]] = [120; 60; 226; 130; 172; 226; 130; 172].
Proof.
  split; [apply sample_good_name; lia|]. split; [|reflexivity].
  constructor; [cbn; lia|]. constructor; [exact I|]. constructor; [|constructor; [|constructor; [|constructor]]]; cbn [good_piece].
  - split; [discriminate|]. split; [repeat constructor; discriminate|]. split; [left; vm_compute; split; congruence|discriminate].
  - split; [discriminate|]. split; [unfold is_hex; repeat constructor; lia|]. split; [left; vm_compute; split; congruence|discriminate].
  - repeat split; intros; try lia. exists 98, [60]. split; [reflexivity|lia].
Qed.

(* ------------------------------------------------------------------ numbers *)
Lemma digits_to base ds : base = 10 -> forall a, Forall (fun c => isdigit c = true) ds -> to_digits base ds a = dec_digits ds a.
Proof.
  intros ->. induction ds as [|c ds IH]; intros a F; cbn; [auto|]. inversion F as [|? ? C F']; subst. rewrite C.
  unfold hexval. rewrite C. replace (c - 48 <? 10) with true by (unfold isdigit in C; lia). auto.
Qed.
Lemma to_prefixed_10 l : to_prefixed 10 l = to_digits 10 l 0.
Proof.
  unfold to_prefixed. destruct l as [|a [|b [|c t]]]; auto; destruct a as [|a|a]; auto; do 6 (try destruct a as [a|a|]; auto).
Qed.
Lemma show_nat z : 0 <= z <= 2 ^ 63 -> to_prefixed 10 (digits 19 z []) = z.
Proof.
  intros R. rewrite to_prefixed_10, digits_to; auto. 2: apply digits_digit; constructor.
  rewrite digits_value; [reflexivity|]. replace (10 ^ Z.of_nat 19) with 10000000000000000000 by reflexivity. lia.
Qed.
Lemma eval_int_show z : - 2 ^ 63 <= z < 2 ^ 63 -> eval_int (show_int z) = z.
Proof.
  intros R. destruct (show_int_shape z R) as (h & t & E & H & T).
  assert (CS : c_str (show_int z) = show_int z).
  { apply c_str_id. rewrite E. constructor; [unfold isdigit in H; destruct H; lia|]. eapply Forall_impl; [|exact T]. cbn. unfold isdigit. lia. }
  unfold eval_int. rewrite CS.
  unfold show_int in *. destruct (z <? 0) eqn:Z0.
  - unfold strtol, to_number. cbn [drop_space]. change (isspace 45) with false. cbn iota. change (45 =? 45) with true. cbn iota. rewrite show_nat by lia. lia.
  - assert (V : sgn 64 (strtoull 10 (digits 19 z [])) = z).
    { pose proof (show_nat z ltac:(lia)) as V. pose proof (digits_digit 19 z [] (Forall_nil _)) as D. rewrite E in *. pose proof (Forall_inv D) as Dh. cbv beta in Dh.
      unfold strtoull, to_number. cbn [drop_space]. rewrite digit_not_space by auto. unfold isdigit in Dh. replace (h =? 45) with false by lia. replace (h =? 43) with false by lia.
      rewrite V. replace (2 ^ 64 <=? z) with false by lia. unfold sgn, wrap. rewrite !Z.mod_mod by lia. rewrite Z.mod_small by lia. replace (z <? 2 ^ (64 - 1)) with true by lia. auto. }
    rewrite E in *. pose proof (digits_digit 19 z [] (Forall_nil _)) as D. rewrite E in D. pose proof (Forall_inv D) as Dh. pose proof (Forall_inv_tail D) as Dt. cbv beta in Dh. unfold isdigit in Dh.
    assert (H45 : h <> 45) by lia.
    assert (TT : match t with x :: _ => x <> 120 /\ x <> 98 | [] => True end). { destruct t; auto. inversion Dt; subst. unfold isdigit in *. lia. }
    clear - V H45 TT. destruct h as [|h|h]; auto. do 6 (destruct h as [h|h|]; auto); try lia.
    all: destruct t as [|x t]; auto; destruct x as [|x|x]; auto; do 7 (destruct x as [x|x|]; auto); try lia.
Qed.

(** A number of 64 bits set with SetValue, written, and read back is the same number *)
Theorem C105_XML_integer : forall name attrs v nodes z, good_name name -> good_attrs attrs -> Forall good_node nodes -> - 2 ^ 63 <= z < 2 ^ 63 ->
  exists v', read (write_file false (Node xml [] [] [set_value_int (Node name attrs v nodes) z])) = Ok (Node xml [] [] [Node name attrs v' nodes]) /\ eval_int v' = z.
Proof.
  intros name attrs v nodes z GN GA F R. exists (show_int z). split; [|apply eval_int_show; auto].
  apply C101_XML_roundtrip_partial. split; [left; auto|]. constructor; [|constructor]. constructor; auto.
  destruct (show_int_shape z R) as (h & t & E & H & T). rewrite E. split.
  - constructor; [unfold isdigit in H; destruct H; lia|]. eapply Forall_impl; [|exact T]. cbn. unfold isdigit. lia.
  - right; left. left. unfold isdigit in H. destruct H; lia.
Qed.
Print Assumptions C105_XML_integer.
Example C105_example : good_name [97] /\ read (write_file false (Node xml [] [] [set_value_int (Node [97] [] [] []) (-42)])) = Ok (Node xml [] [] [Node [97] [] [45; 52; 50] []]) /\ eval_int [45; 52; 50] = -42.
Proof. split; [apply sample_good_name; lia|]. vm_compute. auto. Qed.
