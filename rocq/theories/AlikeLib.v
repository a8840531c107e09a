(** The library's decoders on things that are alike, and [parse]. *)

From Coq Require Import NArith ZArith List Bool String.
From Verif Require Import Chars Ast Errors Chumsky Spans Grammar Kdl KdlText Observe Decode Scalar Containers
  DeriveDef Derive AlikeSpec AlikeProps AlikeDerive AstProps SpanIndep.
Import ListNotations.

Section Alike.
Context {Sp1 Sp2 : Type}.
Variable R : Sp1 -> Sp2 -> Prop.

Notation ctx := (context_alike R).
Notation sp := (spanned_alike R eq).
Notation va := (value_alike R).
Notation sn := (snode_alike R).
Notation de := (dec_alike R).
Notation sc := (scalar_impl_alike R).

(** ** Scalars *)

Lemma default_alike {A B} (P : A -> B -> Prop) tc1 tc2 rd1 rd2 :
  (forall t1 t2 c1 c2, opt_alike sp t1 t2 -> ctx c1 c2 -> ctx (tc1 t1 c1) (tc2 t2 c2)) ->
  (forall l1 l2, sp l1 l2 -> de P (rd1 l1) (rd2 l2)) ->
  sc P (scalar_default tc1 rd1) (scalar_default tc2 rd2).
Proof.
  intros T D. split; cbn [scalar_default sc_type_check sc_raw_decode sc_decode]; [exact T|exact D|].
  intros v1 v2 V c1 c2 C. unfold default_decode. apply D; [apply va_literal, V|].
  apply T; [apply va_type, V|exact C].
Qed.

Lemma number_check_alike m n t1 t2 c1 c2 : opt_alike sp t1 t2 -> ctx c1 c2 ->
  ctx (number_type_check m n t1 c1) (number_type_check m n t2 c2).
Proof.
  intros T C. unfold number_type_check. destruct T as [|a b T]; [exact C|].
  rewrite (sp_value _ _ _ _ T). destruct (match typename_as_builtin (s_value b) with Some _ => _ | None => _ end);
    [exact C|]. apply ctx_emit; [|exact C]. constructor. exact (sp_span _ _ _ _ T).
Qed.

Lemma no_check_alike n t1 t2 c1 c2 : opt_alike sp t1 t2 -> ctx c1 c2 ->
  ctx (no_type_check n t1 c1) (no_type_check n t2 c2).
Proof.
  intros T C. unfold no_type_check. destruct T as [|a b T]; [exact C|].
  rewrite (sp_value _ _ _ _ T). apply ctx_emit; [|exact C]. constructor. exact (sp_span _ _ _ _ T).
Qed.

Lemma ok_alike {A B} (P : A -> B -> Prop) a b c1 c2 : P a b -> ctx c1 c2 ->
  pair_alike ctx (dout_alike R P) (c1, DOk a) (c2, DOk b).
Proof. intros X C. constructor; [exact C|constructor; exact X]. Qed.

Lemma int_alike t : sc eq (int_impl t) (int_impl t).
Proof.
  apply default_alike; [intros; apply number_check_alike; assumption|].
  intros l1 l2 L c1 c2 C. unfold int_raw_decode. rewrite (sp_value _ _ _ _ L).
  destruct (s_value l2); try (apply ok_alike; [reflexivity|apply ctx_emit; [apply err_kind, L|exact C]]).
  destruct (int_try_from t r digits); apply ok_alike; try reflexivity; [exact C|].
  apply ctx_emit; [eapply err_conversion; exact L|exact C].
Qed.

Lemma float_alike {F} t (from_str : text -> option F) zero :
  sc eq (float_impl t from_str zero) (float_impl t from_str zero).
Proof.
  apply default_alike; [intros; apply number_check_alike; assumption|].
  intros l1 l2 L c1 c2 C. unfold float_raw_decode. rewrite (sp_value _ _ _ _ L).
  destruct (s_value l2) as [| | |s|]; try (apply ok_alike; [reflexivity|apply ctx_emit; [apply err_kind, L|exact C]]).
  destruct (from_str s); apply ok_alike; try reflexivity; [exact C|].
  apply ctx_emit; [eapply err_conversion; exact L|exact C].
Qed.

Lemma string_alike t : sc eq (string_impl t) (string_impl t).
Proof.
  apply default_alike; [intros; apply no_check_alike; assumption|].
  intros l1 l2 L c1 c2 C. unfold string_raw_decode. rewrite (sp_value _ _ _ _ L).
  destruct (s_value l2); apply ok_alike; try reflexivity; try exact C; (apply ctx_emit; [apply err_kind, L|exact C]).
Qed.

Lemma bool_alike : sc eq bool_impl bool_impl.
Proof.
  apply default_alike; [intros; apply no_check_alike; assumption|].
  intros l1 l2 L c1 c2 C. unfold bool_raw_decode. rewrite (sp_value _ _ _ _ L).
  destruct (s_value l2); apply ok_alike; try reflexivity; try exact C; (apply ctx_emit; [apply err_kind, L|exact C]).
Qed.

Lemma literal_alike : sc eq literal_impl literal_impl.
Proof.
  apply default_alike; [intros; assumption|]. intros l1 l2 L. apply a_ok, (sp_value _ _ _ _ L).
Qed.

Lemma match_name_alike {A B} (P : A -> B -> Prop) s vs1 vs2 : Forall2 (pair_alike eq P) vs1 vs2 ->
  opt_alike P (match_name s vs1) (match_name s vs2).
Proof.
  intro H. induction H as [|x y l1 l2 XY H IH]; cbn [match_name]; [constructor|].
  inv XY. destruct (text_eqb _ _); [constructor; assumption|exact IH].
Qed.

Lemma enum_alike {A B} (P : A -> B -> Prop) name vs1 vs2 : Forall2 (pair_alike eq P) vs1 vs2 ->
  sc P (scalar_enum_impl name vs1) (scalar_enum_impl name vs2).
Proof.
  intro V. apply default_alike; [intros; apply no_check_alike; assumption|].
  intros l1 l2 L. unfold scalar_enum_raw. rewrite (sp_value _ _ _ _ L).
  destruct (s_value l2) as [| | | |s]; try (apply a_err, err_kind, L).
  assert (E : map fst vs1 = map fst vs2) by (eapply F2_map_eq; [|exact V]; intros a b X; inv X; reflexivity).
  rewrite E. destruct (match_name_alike P s _ _ V).
  - apply a_err. eapply err_conversion. exact L.
  - apply a_ok. assumption.
Qed.

Lemma option_alike {A B} (P : A -> B -> Prop) i1 i2 : sc P i1 i2 ->
  sc (opt_alike P) (option_impl i1) (option_impl i2).
Proof.
  intro I. apply default_alike; [apply I|]. intros l1 l2 L. rewrite (sp_value _ _ _ _ L).
  pose proof (a_map _ _ (opt_alike P) _ _ Some Some (sa_raw_decode _ _ _ _ I _ _ L) (OA_some P)) as K.
  destruct (s_value l2); try exact K. apply a_ok. constructor.
Qed.

Lemma wrapped_alike {A B C D} (P : A -> B -> Prop) (Q : C -> D -> Prop) w1 w2 i1 i2 :
  (forall a b, P a b -> Q (w1 a) (w2 b)) -> sc P i1 i2 -> sc Q (wrapped_impl w1 i1) (wrapped_impl w2 i2).
Proof.
  intros W I. apply default_alike; [apply I|]. intros l1 l2 L.
  eapply a_map; [apply (sa_raw_decode _ _ _ _ I _ _ L)|exact W].
Qed.

Section Spans.
Context {Q1 Q2 : Type}.
Variable RQ : Q1 -> Q2 -> Prop.
Variables (ds1 : span_impl Sp1 Q1) (ds2 : span_impl Sp2 Q2).
Hypothesis DS : span_impl_alike R RQ ds1 ds2.

Lemma pure_alike {A B} (P : A -> B -> Prop) f1 f2 :
  (forall c1 c2, ctx c1 c2 -> pair_alike ctx P (f1 c1) (f2 c2)) -> de P (d_pure f1) (d_pure f2).
Proof.
  intros F c1 c2 C. unfold d_pure. destruct (F _ _ C). apply ok_alike; assumption.
Qed.

Lemma spanned_impl_alike {A B} (P : A -> B -> Prop) i1 i2 : sc P i1 i2 ->
  sc (spanned_alike RQ P) (spanned_impl ds1 i1) (spanned_impl ds2 i2).
Proof.
  intro I. apply default_alike; [apply I|]. intros l1 l2 L.
  eapply a_bind; [apply (sa_raw_decode _ _ _ _ I _ _ L)|]. intros a b AB c1 c2 C.
  destruct (DS _ _ _ _ (sp_span _ _ _ _ L) C). apply ok_alike; [constructor|]; assumption.
Qed.

Lemma clone_alike {T U} (P : T -> U -> Prop) s1 s2 c1 c2 : spanned_alike R P s1 s2 -> ctx c1 c2 ->
  pair_alike ctx (spanned_alike RQ P) (clone_as ds1 s1 c1) (clone_as ds2 s2 c2).
Proof.
  intros S C. unfold clone_as. destruct (DS _ _ _ _ (sp_span _ _ _ _ S) C).
  constructor; [assumption|]. constructor; [assumption|exact (sp_value _ _ _ _ S)].
Qed.

Lemma value_decode_alike v1 v2 : va v1 v2 -> de (value_alike RQ) (value_decode ds1 v1) (value_decode ds2 v2).
Proof.
  intros V c1 c2 C. unfold value_decode.
  assert (K : pair_alike ctx (opt_alike (spanned_alike RQ eq))
    (match v_type_name v1 with Some n => let '(c1, n') := clone_as ds1 n c1 in (c1, Some n') | None => (c1, None) end)
    (match v_type_name v2 with Some n => let '(c1, n') := clone_as ds2 n c2 in (c1, Some n') | None => (c2, None) end)).
  { destruct (va_type _ _ _ V) as [|a b T]; [constructor; [exact C|constructor]|].
    destruct (clone_alike _ _ _ _ _ T C). constructor; [assumption|constructor; assumption]. }
  destruct K as [d1 d2 t1 t2 D T].
  destruct (clone_alike _ _ _ _ _ (va_literal _ _ _ V) D).
  apply ok_alike; [constructor|]; assumption.
Qed.

Lemma value_impl_alike : sc (value_alike RQ) (value_impl ds1) (value_impl ds2).
Proof.
  split; cbn [value_impl sc_type_check sc_raw_decode sc_decode]; intros; [assumption|apply a_panic|].
  apply value_decode_alike; assumption.
Qed.

Lemma props_insert_alike {A B} (P : A -> B -> Prop) k1 k2 v1 v2 m1 m2 :
  spanned_alike RQ eq k1 k2 -> P v1 v2 -> Forall2 (pair_alike (spanned_alike RQ eq) P) m1 m2 ->
  Forall2 (pair_alike (spanned_alike RQ eq) P) (props_insert k1 v1 m1) (props_insert k2 v2 m2).
Proof.
  intros K V H. induction H as [|[a1 b1] [a2 b2] m1 m2 AB H IH]; cbn [props_insert].
  - apply F2_one. constructor; assumption.
  - pose proof AB as AB'. inv AB'. rewrite (sp_value _ _ _ _ K).
    match goal with X : spanned_alike _ eq a1 a2 |- _ => rewrite (sp_value _ _ _ _ X) end.
    destruct (text_compare (s_value k2) (s_value a2)); repeat (constructor; try assumption).
Qed.

Lemma collect_alike {A B} (P : A -> B -> Prop) l1 l2 :
  Forall2 (pair_alike (spanned_alike RQ eq) P) l1 l2 ->
  Forall2 (pair_alike (spanned_alike RQ eq) P) (btree_collect l1) (btree_collect l2).
Proof.
  unfold btree_collect. intro H. 
  assert (G : Forall2 (pair_alike (spanned_alike RQ (@eq text)) P) [] []) by constructor. revert G.
  generalize (@nil (spanned text Q1 * A)), (@nil (spanned text Q2 * B)).
  induction H as [|x y l1 l2 XY H IH]; intros m1 m2 M; cbn [fold_left]; [exact M|].
  apply IH. inv XY. cbn [fst snd]. apply props_insert_alike; assumption.
Qed.

Lemma ast_node_alike : forall n1 n2, node_alike R n1 n2 ->
  de (node_alike RQ) (ast_node ds1 n1) (ast_node ds2 n2).
Proof.
  fix IH 3. intros n1 n2 N. destruct N as [t1 t2 m1 m2 a1 a2 p1 p2 c1 c2 T M A P C].
  cbn [ast_node]. eapply a_bind with (P := opt_alike (spanned_alike RQ eq)).
  { clear IH. destruct T as [|x y T]; [apply a_ok; constructor|].
    eapply a_map; [apply pure_alike; intros; apply clone_alike; eassumption|]. intros. constructor. assumption. }
  intros t1' t2' T'. eapply a_bind.
  { apply pure_alike. intros. apply clone_alike; eassumption. }
  intros m1' m2' M'. eapply a_bind.
  { eapply a_collect; [exact A|]. intros. apply value_decode_alike. assumption. }
  intros a1' a2' A'. eapply a_bind with (P := Forall2 (pair_alike (spanned_alike RQ eq) (value_alike RQ))).
  { eapply a_collect; [exact P|]. intros x y XY. clear IH. destruct XY as [k1 k2 v1 v2 K V]. cbn [fst snd].
    eapply a_bind; [apply pure_alike; intros; apply clone_alike; eassumption|]. intros k1' k2' K'.
    eapply a_bind; [apply value_decode_alike; eassumption|]. intros v1' v2' V'. apply a_ok.
    constructor; assumption. }
  intros p1' p2' P'.
  eapply a_bind with (P := opt_alike (spanned_alike RQ (Forall2 (spanned_alike RQ (node_alike RQ))))).
  { destruct C as [|x y C]; [clear IH; apply a_ok; constructor|].
    destruct C as [s1 s2 l1 l2 S L]. cbn [s_span s_value].
    eapply a_bind; [apply pure_alike; intros; apply DS; eassumption|]. intros q1 q2 Q.
    eapply a_bind with (P := Forall2 (spanned_alike RQ (node_alike RQ))).
    2:{ intros l1' l2' L'. apply a_ok. constructor. constructor; assumption. }
    clear - IH L DS. induction L as [|x y l1 l2 XY L IHL]; [apply a_ok; constructor|].
    destruct XY as [s1 s2 n1 n2 S N]. cbn [s_span s_value].
    eapply a_bind; [apply pure_alike; intros; apply DS; eassumption|]. intros q1 q2 Q.
    eapply a_bind; [apply (IH n1 n2 N)|]. intros n1' n2' N'.
    eapply a_bind; [exact IHL|]. intros l1' l2' L'. apply a_ok. constructor; [|exact L'].
    constructor; assumption. }
  intros c1' c2' C'. apply a_ok. constructor; try assumption. apply collect_alike. assumption.
Qed.

Lemma ast_impl_alike : node_impl_alike R (node_alike RQ) (ast_node_impl ds1) (ast_node_impl ds2).
Proof. intros n1 n2 N. apply ast_node_alike, (sp_value _ _ _ _ N). Qed.

Lemma ast_snode_alike : node_impl_alike R (snode_alike RQ) (ast_snode_impl ds1) (ast_snode_impl ds2).
Proof.
  intros n1 n2 N. unfold ast_snode_impl.
  eapply a_bind; [apply pure_alike; intros; apply DS; [exact (sp_span _ _ _ _ N)|eassumption]|].
  intros q1 q2 Q. eapply a_bind; [apply ast_impl_alike, N|]. intros m1 m2 M. apply a_ok.
  constructor; assumption.
Qed.

End Spans.

(** ** Containers *)

Lemma vec_alike {A B} (P : A -> B -> Prop) d1 d2 : node_impl_alike R P d1 d2 ->
  children_impl_alike R (Forall2 P) (vec_children d1) (vec_children d2).
Proof.
  intros D n1 n2 N. unfold vec_children.
  assert (G : Forall2 P [] []) by constructor. revert G. generalize (@nil A), (@nil B).
  induction N as [|x y n1 n2 XY N IH]; intros l1 l2 L c1 c2 C; cbn [vec_loop]; [apply ok_alike; assumption|].
  destruct (D _ _ XY _ _ C) as [e1 e2 o1 o2 E O].
  destruct O as [a b AB|f1 f2 F|].
  - apply IH; [apply F2_snoc; assumption|exact E].
  - apply IH; [exact L|apply ctx_emit; assumption].
  - constructor; [exact E|constructor].
Qed.

Lemma wrapped_node_alike {A B C D} (P : A -> B -> Prop) (Q : C -> D -> Prop) w1 w2 d1 d2 :
  (forall a b, P a b -> Q (w1 a) (w2 b)) -> node_impl_alike R P d1 d2 ->
  node_impl_alike R Q (wrapped_node w1 d1) (wrapped_node w2 d2).
Proof. intros W H n1 n2 N. eapply a_map; [apply H, N|exact W]. Qed.

Lemma wrapped_children_alike {A B C D} (P : A -> B -> Prop) (Q : C -> D -> Prop) w1 w2 d1 d2 :
  (forall a b, P a b -> Q (w1 a) (w2 b)) -> children_impl_alike R P d1 d2 ->
  children_impl_alike R Q (wrapped_children w1 d1) (wrapped_children w2 d2).
Proof. intros W H n1 n2 N. eapply a_map; [apply H, N|exact W]. Qed.

(** ** [parse] and [node] *)

Lemma context_new_alike : ctx context_new context_new.
Proof. constructor. constructor. Qed.

Lemma has_errors_alike c1 c2 : ctx c1 c2 -> has_errors c1 = has_errors c2.
Proof. intro C. inv C. unfold has_errors. cbn [c_errors]. match goal with X : Forall2 _ _ _ |- _ => inv X end; reflexivity. Qed.

Lemma into_errors_alike c1 c2 : ctx c1 c2 -> Forall2 (error_alike R) (into_errors c1) (into_errors c2).
Proof. intro C. inv C. assumption. Qed.

Inductive parsed_alike : parsed Sp1 (document Sp1) -> parsed Sp2 (document Sp2) -> Prop :=
| PdA_ok d1 d2 : nodes_alike R d1 d2 -> parsed_alike (Parsed d1) (Parsed d2)
| PdA_err e1 e2 : Forall2 (perror_alike R) e1 e2 -> parsed_alike (Rejected e1) (Rejected e2)
| PdA_panic : parsed_alike Panicked Panicked.

Lemma parse_alike {A B} (P : A -> B -> Prop) r1 r2 f1 f2 d1 d2 :
  parsed_alike r1 r2 -> ext_alike R f1 f2 -> children_impl_alike R P d1 d2 ->
  outcome_alike R P (parse_with_context r1 f1 d1) (parse_with_context r2 f2 d2).
Proof.
  intros H F D. unfold parse_with_context. destruct H as [a1 a2 N|e1 e2 E|]; [|constructor; exact E|constructor].
  destruct (D _ _ N _ _ (F _ _ context_new_alike)) as [c1 c2 o1 o2 C O].
  destruct O as [a b AB|e1 e2 E|].
  - rewrite (has_errors_alike _ _ C). destruct (has_errors c2); constructor; [|exact AB].
    apply into_errors_alike, C.
  - constructor. apply into_errors_alike, ctx_emit; assumption.
  - constructor.
Qed.

Lemma node_decode_alike {A B} (P : A -> B -> Prop) d1 d2 n1 n2 : node_impl_alike R P d1 d2 ->
  snode_alike R n1 n2 -> decoded_alike R P (node_decode d1 n1) (node_decode d2 n2).
Proof.
  intros D N. unfold node_decode. destruct (D _ _ N _ _ context_new_alike) as [c1 c2 o1 o2 C O].
  destruct O as [a b AB|e1 e2 E|].
  - rewrite (has_errors_alike _ _ C). destruct (has_errors c2); constructor; [|exact AB].
    apply into_errors_alike, C.
  - constructor. apply into_errors_alike, ctx_emit; assumption.
  - constructor.
Qed.

End Alike.

(** ** All of them *)

Theorem library_alike : forall Sp1 Sp2 (R : Sp1 -> Sp2 -> Prop),
  (forall t, scalar_impl_alike R eq (string_impl t) (string_impl t))
  /\ scalar_impl_alike R eq bool_impl bool_impl
  /\ (forall t, scalar_impl_alike R eq (int_impl t) (int_impl t))
  /\ (forall F t (from_str : text -> option F) zero,
        scalar_impl_alike R eq (float_impl t from_str zero) (float_impl t from_str zero))
  /\ scalar_impl_alike R eq literal_impl literal_impl
  /\ (forall A B (P : A -> B -> Prop) name vs1 vs2, Forall2 (pair_alike eq P) vs1 vs2 ->
        scalar_impl_alike R P (scalar_enum_impl name vs1) (scalar_enum_impl name vs2))
  /\ (forall A B (P : A -> B -> Prop) i1 i2, scalar_impl_alike R P i1 i2 ->
        scalar_impl_alike R (opt_alike P) (option_impl i1) (option_impl i2))
  /\ (forall A B C D (P : A -> B -> Prop) (Q : C -> D -> Prop) w1 w2 i1 i2,
        (forall a b, P a b -> Q (w1 a) (w2 b)) -> scalar_impl_alike R P i1 i2 ->
        scalar_impl_alike R Q (wrapped_impl w1 i1) (wrapped_impl w2 i2))
  /\ (forall A B (P : A -> B -> Prop) d1 d2, node_impl_alike R P d1 d2 ->
        children_impl_alike R (Forall2 P) (vec_children d1) (vec_children d2))
  /\ (forall A B C D (P : A -> B -> Prop) (Q : C -> D -> Prop) w1 w2 d1 d2,
        (forall a b, P a b -> Q (w1 a) (w2 b)) -> node_impl_alike R P d1 d2 ->
        node_impl_alike R Q (wrapped_node w1 d1) (wrapped_node w2 d2))
  /\ (forall A B C D (P : A -> B -> Prop) (Q : C -> D -> Prop) w1 w2 d1 d2,
        (forall a b, P a b -> Q (w1 a) (w2 b)) -> children_impl_alike R P d1 d2 ->
        children_impl_alike R Q (wrapped_children w1 d1) (wrapped_children w2 d2)).
Proof.
  intros Sp1 Sp2 R. split; [exact (string_alike R)|]. split; [exact (bool_alike R)|].
  split; [exact (int_alike R)|]. split; [intros; apply float_alike|]. split; [exact (literal_alike R)|].
  split; [intros; apply enum_alike; assumption|]. split; [intros; apply option_alike; assumption|].
  split; [intros; eapply wrapped_alike; eassumption|]. split; [intros; apply vec_alike; assumption|].
  split; intros; [eapply wrapped_node_alike|eapply wrapped_children_alike]; eassumption.
Qed.

Theorem ast_alike : forall Sp1 Sp2 (R : Sp1 -> Sp2 -> Prop) Q1 Q2 (RQ : Q1 -> Q2 -> Prop) ds1 ds2,
  span_impl_alike R RQ ds1 ds2 ->
  (forall A B (P : A -> B -> Prop) i1 i2, scalar_impl_alike R P i1 i2 ->
     scalar_impl_alike R (spanned_alike RQ P) (spanned_impl ds1 i1) (spanned_impl ds2 i2))
  /\ scalar_impl_alike R (value_alike RQ) (value_impl ds1) (value_impl ds2)
  /\ node_impl_alike R (node_alike RQ) (ast_node_impl ds1) (ast_node_impl ds2)
  /\ node_impl_alike R (snode_alike RQ) (ast_snode_impl ds1) (ast_snode_impl ds2).
Proof.
  intros Sp1 Sp2 R Q1 Q2 RQ ds1 ds2 DS. split; [intros; apply spanned_impl_alike; assumption|].
  split; [apply value_impl_alike, DS|]. split; [apply ast_impl_alike, DS|apply ast_snode_alike, DS].
Qed.

Theorem spans_alike : forall Sp1 Sp2 (R : Sp1 -> Sp2 -> Prop),
  span_impl_alike R R span_self span_self
  /\ span_impl_alike same_bytes eq span_of_line span_self.
Proof.
  intros Sp1 Sp2 R. split; intros s1 s2 c1 c2 S C; constructor; try assumption.
Qed.
