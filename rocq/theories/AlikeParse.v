(** Reading the same document with other spans, and decoding it. *)

From Coq Require Import NArith ZArith List Bool String.
From Verif Require Import Chars Ast Errors Chumsky Spans Grammar Kdl KdlText Layout Observe LayoutProps
  Decode Scalar Containers DeriveDef Derive AlikeSpec AlikeProps AlikeDerive AlikeLib SpanIndep.
Import ListNotations.

(** ** Documents with the same spans after mapping *)

Section Maps.
Context {Sp1 Sp2 U : Type}.
Variables (f : Sp1 -> U) (g : Sp2 -> U).
Notation R := (fun a b => f a = g b).

Lemma map_spanned {A} (s1 : spanned A Sp1) (s2 : spanned A Sp2) :
  spanned_map_span f s1 = spanned_map_span g s2 -> spanned_alike R eq s1 s2.
Proof. destruct s1, s2. cbn. intro E. injection E as E1 E2. constructor; assumption. Qed.

Lemma map_spanned_opt {A} (s1 : option (spanned A Sp1)) (s2 : option (spanned A Sp2)) :
  option_map (spanned_map_span f) s1 = option_map (spanned_map_span g) s2 ->
  opt_alike (spanned_alike R eq) s1 s2.
Proof.
  destruct s1, s2; cbn; intro E; try discriminate; constructor. apply map_spanned. congruence.
Qed.

Lemma map_value v1 v2 : map_value_span f v1 = map_value_span g v2 -> value_alike R v1 v2.
Proof.
  destruct v1 as [t1 l1], v2 as [t2 l2]. unfold map_value_span. cbn [v_type_name v_literal].
  intro E. constructor; [apply map_spanned_opt; exact (f_equal (fun v => v_type_name v) E)|].
  apply map_spanned. exact (f_equal (fun v => v_literal v) E).
Qed.

Lemma map_list {A B C} (h : A -> C) (k : B -> C) (P : A -> B -> Prop) l1 l2 :
  (forall a b, h a = k b -> P a b) -> map h l1 = map k l2 -> Forall2 P l1 l2.
Proof.
  intro H. revert l2. induction l1 as [|a l1 IH]; intros [|b l2] E; cbn in E; try discriminate; constructor.
  - apply H. congruence.
  - apply IH. congruence.
Qed.

Lemma map_nodes : forall n1 n2, map_node_span f n1 = map_node_span g n2 -> node_alike R n1 n2.
Proof.
  fix IH 1. intros [t1 m1 a1 p1 c1] [t2 m2 a2 p2 c2]. cbn [map_node_span]. intro E.
  assert (E1 := f_equal (fun n => n_type_name n) E). assert (E2 := f_equal (fun n => n_node_name n) E).
  assert (E3 := f_equal (fun n => n_arguments n) E). assert (E4 := f_equal (fun n => n_properties n) E).
  assert (E5 := f_equal (fun n => n_children n) E).
  cbn [n_type_name n_node_name n_arguments n_properties n_children] in E1, E2, E3, E4, E5. clear E. constructor.
  - apply map_spanned_opt, E1.
  - apply map_spanned, E2.
  - eapply map_list; [|exact E3]. apply map_value.
  - eapply map_list; [|exact E4]. intros [k1 v1] [k2 v2] K. cbn [fst snd] in K.
    constructor; [apply map_spanned; exact (f_equal fst K)|apply map_value; exact (f_equal snd K)].
  - clear E1 E2 E3 E4. destruct c1 as [[q1 l1]|], c2 as [[q2 l2]|]; try discriminate; constructor.
    assert (E : f q1 = g q2) by congruence. constructor; [exact E|]. clear E.
    injection E5 as _ E. revert l2 E.
    induction l1 as [|[s1 n1] l1 IHl]; intros [|[s2 n2] l2] E; cbn in E; try discriminate; constructor.
    + injection E as E1 E2 _. constructor; [exact E1|]. apply IH. exact E2.
    + apply IHl. congruence.
Qed.

Lemma map_docs d1 d2 : map_doc_span f d1 = map_doc_span g d2 -> nodes_alike R d1 d2.
Proof.
  apply map_list. intros [s1 n1] [s2 n2] E. unfold map_snode_span in E. cbn [s_span s_value] in E.
  constructor; [congruence|]. apply map_nodes. congruence.
Qed.

End Maps.

(** The mapped document is alike. *)
Lemma mapped_node {Sp U} (f : Sp -> U) : forall n, node_alike (fun a b => f a = b) n (map_node_span f n).
Proof.
  fix IH 1. intros [t m a p c]. cbn [map_node_span].
  assert (S : forall A (s : spanned A Sp), spanned_alike (fun a b => f a = b) eq s (spanned_map_span f s))
    by (intros A [q x]; constructor; reflexivity).
  assert (O : forall A (s : option (spanned A Sp)),
    opt_alike (spanned_alike (fun a b => f a = b) eq) s (option_map (spanned_map_span f) s))
    by (intros A [s|]; constructor; apply S).
  assert (V : forall v, value_alike (fun a b => f a = b) v (map_value_span f v))
    by (intros [ty l]; constructor; [apply O|apply S]).
  constructor.
  - apply O.
  - apply S.
  - clear IH. induction a; constructor; auto.
  - clear IH. induction p as [|[k v] p IH]; constructor; [constructor; cbn [fst snd]; auto|exact IH].
  - destruct c as [[q l]|]; constructor. constructor; [reflexivity|].
    induction l as [|[s n] l IHl]; constructor; [|exact IHl]. constructor; [reflexivity|]. apply IH.
Qed.

Lemma mapped_doc {Sp U} (f : Sp -> U) d : nodes_alike (fun a b => f a = b) d (map_doc_span f d).
Proof.
  induction d as [|[s n] d IH]; constructor; [|exact IH]. constructor; [reflexivity|]. apply mapped_node.
Qed.

Lemma mapped_errors {Sp U} (f : Sp -> U) es :
  Forall2 (perror_alike (fun a b => f a = b)) es (map (map_perror_span f) es).
Proof. induction es as [|e es IH]; constructor; [|exact IH]. destruct e; constructor; reflexivity. Qed.

Lemma line_parsed w t : parsed_alike same_bytes (parse_ast_linespan w t) (parse_ast_span t).
Proof.
  rewrite (span_independent_match w t). generalize (parse_ast_linespan w t). intros [d|es|]; constructor.
  - apply (mapped_doc linespan_to_span).
  - apply (mapped_errors linespan_to_span).
Qed.

Lemma read_parsed t1 t2 : read_alike t1 t2 ->
  parsed_alike any_place (parse_ast_span t1) (parse_ast_span t2).
Proof.
  intros [a1 [a2 [-> [-> E]]]]. constructor. unfold without_spans in E.
  pose proof (map_docs _ _ _ _ E) as K. clear E.
  assert (W : forall n1 n2, node_alike (fun (_ _ : span) => tt = tt) n1 n2 ->
                            node_alike (@any_place span span) n1 n2); [|].
  2:{ induction K as [|x y l1 l2 XY K IH]; constructor; [|exact IH]. destruct XY. constructor; [exact I|auto]. }
  clear.
  assert (S : forall A (s1 s2 : spanned A span), spanned_alike (fun _ _ => tt = tt) eq s1 s2 ->
     spanned_alike any_place eq s1 s2) by (intros A s1 s2 H; destruct H; constructor; [exact I|assumption]).
  assert (O : forall A (s1 s2 : option (spanned A span)), opt_alike (spanned_alike (fun _ _ => tt = tt) eq) s1 s2 ->
     opt_alike (spanned_alike any_place eq) s1 s2) by (intros A s1 s2 H; destruct H; constructor; auto).
  assert (V : forall v1 v2, value_alike (fun _ _ => tt = tt) v1 v2 -> value_alike (@any_place span span) v1 v2)
    by (intros v1 v2 H; destruct H; constructor; auto).
  fix IH 3. intros n1 n2 N. destruct N as [t1 t2 m1 m2 a1 a2 p1 p2 c1 c2 T M A P C]. constructor; auto.
  - clear IH. induction A; constructor; auto.
  - clear IH. induction P as [|x y l1 l2 XY P IHP]; constructor; [|exact IHP]. destruct XY. constructor; auto.
  - destruct C as [|x y C]; constructor. destruct C as [q1 q2 l1 l2 Q L]. constructor; [exact I|].
    induction L as [|x y l1 l2 XY L IHL]; constructor; [|exact IHL].
    destruct XY as [s1 s2 n1 n2 _ N]. constructor; [exact I|apply IH; exact N].
Qed.

(** ** Values *)

Lemma dval_alike_eq {L} : forall v w : dval L, dval_alike eq v w -> v = w.
Proof.
  assert (F : forall l1 l2 : list (dval L), Forall2 eq l1 l2 -> l1 = l2)
    by (intros l1 l2 H; induction H; congruence).
  fix IH 3. intros v w H. destruct H as [a b X| | |a b X|l1 l2 X|l1 l2 X|id l1 l2 X|id n l1 l2 X].
  - congruence.
  - reflexivity.
  - reflexivity.
  - f_equal. apply IH, X.
  - f_equal. induction X as [|a b l1 l2 AB X IHX]; [reflexivity|]. f_equal; [apply IH, AB|exact IHX].
  - f_equal. induction X as [|a b l1 l2 AB X IHX]; [reflexivity|]. f_equal; [|exact IHX].
    destruct AB as [a a' b b' A B]. f_equal; [apply IH, A|apply IH, B].
  - f_equal. induction X as [|a b l1 l2 AB X IHX]; [reflexivity|]. f_equal; [|exact IHX].
    destruct AB as [a a' b b' A B]. f_equal; [exact A|apply IH, B].
  - f_equal. induction X as [|a b l1 l2 AB X IHX]; [reflexivity|]. f_equal; [apply IH, AB|exact IHX].
Qed.

Lemma dval_alike_refl {L} : forall v : dval L, dval_alike eq v v.
Proof.
  fix IH 1. intro v. destruct v as [a|b| |v|l|l|id l|id n l]; constructor.
  - reflexivity.
  - apply IH.
  - induction l as [|a l IHl]; constructor; [apply IH|exact IHl].
  - induction l as [|[a b] l IHl]; constructor; [constructor; apply IH|exact IHl].
  - induction l as [|[a b] l IHl]; constructor; [constructor; [reflexivity|apply IH]|exact IHl].
  - induction l as [|a l IHl]; constructor; [apply IH|exact IHl].
Qed.

Theorem dval_same {L} (v w : dval L) : dval_alike eq v w <-> v = w.
Proof. split; [apply dval_alike_eq|intros ->; apply dval_alike_refl]. Qed.

(** ** [parse] *)

Theorem span_type_parse {A B} (P : A -> B -> Prop) w t f1 f2 d1 d2 :
  ext_alike same_bytes f1 f2 -> children_impl_alike same_bytes P d1 d2 ->
  outcome_alike same_bytes P (parse_with_context (parse_ast_linespan w t) f1 d1)
    (parse_with_context (parse_ast_span t) f2 d2).
Proof. intros F D. apply parse_alike; [apply line_parsed|exact F|exact D]. Qed.

Theorem layout_parse {A B} (P : A -> B -> Prop) t1 t2 f1 f2 d1 d2 :
  read_alike t1 t2 -> ext_alike any_place f1 f2 -> children_impl_alike any_place P d1 d2 ->
  outcome_alike any_place P (parse_with_context (parse_ast_span t1) f1 d1)
    (parse_with_context (parse_ast_span t2) f2 d2).
Proof. intros T F D. apply parse_alike; [apply read_parsed, T|exact F|exact D]. Qed.

Lemma derived_children {Sp1 Sp2 L1 L2} (R : Sp1 -> Sp2 -> Prop) (RL : L1 -> L2 -> Prop) kebab i1 i2 d1 d2 g1 g2 :
  item_alike R RL i1 i2 -> decode_derive kebab i1 = Some d1 -> decode_derive kebab i2 = Some d2 ->
  dr_children d1 = Some g1 -> dr_children d2 = Some g2 ->
  children_impl_alike R (dval_alike RL) g1 g2.
Proof.
  intros I E1 E2 G1 G2. pose proof (derive_alike R RL kebab _ _ I) as K. rewrite E1, E2 in K.
  inversion K as [|x y [_ C _ _]]; subst. rewrite G1, G2 in C. inversion C; subst. assumption.
Qed.

(** A document written in another way has the same value, or the same errors elsewhere. *)
Theorem relaid_value {L} kebab (i : src_item span L) d g x y :
  item_alike any_place eq i i -> decode_derive kebab i = Some d -> dr_children d = Some g ->
  relaid x y -> wf x -> wf y ->
  outcome_alike any_place eq (parse (parse_ast_span (render x)) g) (parse (parse_ast_span (render y)) g).
Proof.
  intros I D G XY WX WY.
  pose proof (layout_parse (dval_alike eq) _ _ (fun c => c) (fun c => c) g g
    (relaid_alike _ _ XY WX WY) (fun _ _ C => C)
    (derived_children _ _ _ _ _ _ _ _ _ I D D G G)) as K.
  unfold parse. inversion K; constructor; try assumption. apply dval_alike_eq. assumption.
Qed.
