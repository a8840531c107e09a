(** Derived decoders, given things that are alike, do things that are alike. *)

From Coq Require Import NArith List Bool String.
From Verif Require Import Chars Ast Errors Chumsky Decode Scalar Containers DeriveDef Derive AlikeSpec.
Import ListNotations.

Ltac inv H := inversion H; clear H; subst.

Lemma F2_app {A B} (P : A -> B -> Prop) l1 l2 m1 m2 :
  Forall2 P l1 l2 -> Forall2 P m1 m2 -> Forall2 P (l1 ++ m1) (l2 ++ m2).
Proof. intros H K. apply Forall2_app; assumption. Qed.

Lemma F2_one {A B} (P : A -> B -> Prop) a b : P a b -> Forall2 P [a] [b].
Proof. intro H. constructor; [exact H|constructor]. Qed.

Lemma F2_snoc {A B} (P : A -> B -> Prop) l1 l2 a b :
  Forall2 P l1 l2 -> P a b -> Forall2 P (l1 ++ [a]) (l2 ++ [b]).
Proof. intros H K. apply F2_app; [exact H|apply F2_one, K]. Qed.

Lemma F2_map {A B C D} (P : A -> B -> Prop) (Q : C -> D -> Prop) f g l1 l2 :
  (forall a b, P a b -> Q (f a) (g b)) -> Forall2 P l1 l2 -> Forall2 Q (map f l1) (map g l2).
Proof. intros K H. induction H; simpl; constructor; auto. Qed.

Lemma F2_map_eq {A B C} (P : A -> B -> Prop) (f : A -> C) (g : B -> C) l1 l2 :
  (forall a b, P a b -> f a = g b) -> Forall2 P l1 l2 -> map f l1 = map g l2.
Proof. intros K H. induction H; simpl; [reflexivity|]. f_equal; auto. Qed.

Lemma F2_rev {A B} (P : A -> B -> Prop) l1 l2 : Forall2 P l1 l2 -> Forall2 P (rev l1) (rev l2).
Proof. intro H. induction H; simpl; [constructor|]. apply F2_snoc; assumption. Qed.

Lemma F2_nil {A B} (P : A -> B -> Prop) l1 l2 : Forall2 P l1 l2 -> is_nil l1 = is_nil l2.
Proof. intro H. inv H; reflexivity. Qed.

Lemma F2_length {A B} (P : A -> B -> Prop) l1 l2 : Forall2 P l1 l2 -> List.length l1 = List.length l2.
Proof. intro H. induction H; simpl; auto. Qed.

Lemma F2_combine {A B C D} (P : A -> B -> Prop) (Q : C -> D -> Prop) l1 l2 m1 m2 :
  Forall2 P l1 l2 -> Forall2 Q m1 m2 -> Forall2 (pair_alike P Q) (combine l1 m1) (combine l2 m2).
Proof.
  intro H. revert m1 m2. induction H; intros m1 m2 K; simpl; [constructor|].
  inv K; constructor; [constructor; assumption|auto].
Qed.

Lemma F2_forallb {A B} (P : A -> B -> Prop) f g l1 l2 :
  (forall a b, P a b -> f a = g b) -> Forall2 P l1 l2 -> forallb f l1 = forallb g l2.
Proof. intros K H. induction H; simpl; [reflexivity|]. f_equal; auto. Qed.

Lemma F2_existsb {A B} (P : A -> B -> Prop) f g l1 l2 :
  (forall a b, P a b -> f a = g b) -> Forall2 P l1 l2 -> existsb f l1 = existsb g l2.
Proof. intros K H. induction H; simpl; [reflexivity|]. f_equal; auto. Qed.

Lemma F2_eq {A} (l : list A) : Forall2 eq l l.
Proof. induction l; constructor; auto. Qed.

Lemma opt_some {A B} (P : A -> B -> Prop) o1 o2 : opt_alike P o1 o2 -> is_some o1 = is_some o2.
Proof. intro H. inv H; reflexivity. Qed.

Section Alike.
Context {Sp1 Sp2 L1 L2 : Type}.
Variable R : Sp1 -> Sp2 -> Prop.
Variable RL : L1 -> L2 -> Prop.

Notation dv := (dval_alike RL).
Notation ctx := (context_alike R).
Notation sp := (spanned_alike R eq).
Notation va := (value_alike R).
Notation sn := (snode_alike R).
Notation de := (dec_alike R).
Notation err := (error_alike R).

(** ** Decoders *)

Lemma a_ok {A B} (P : A -> B -> Prop) a b : P a b -> de P (d_ok a) (d_ok b).
Proof. intros H c1 c2 C. constructor; [exact C|constructor; exact H]. Qed.

Lemma a_err {A B} (P : A -> B -> Prop) e1 e2 : err e1 e2 -> de P (d_err e1) (d_err e2).
Proof. intros H c1 c2 C. constructor; [exact C|constructor; exact H]. Qed.

Lemma a_panic {A B} (P : A -> B -> Prop) : de P d_panic d_panic.
Proof. intros c1 c2 C. constructor; [exact C|constructor]. Qed.

Lemma ctx_emit e1 e2 c1 c2 : err e1 e2 -> ctx c1 c2 -> ctx (emit_error e1 c1) (emit_error e2 c2).
Proof. intros H C. inv C. constructor. apply F2_snoc; assumption. Qed.

Lemma a_emit e1 e2 : err e1 e2 -> de eq (d_emit e1) (d_emit e2).
Proof. intros H c1 c2 C. constructor; [apply ctx_emit; assumption|constructor; reflexivity]. Qed.

Lemma a_bind {A B C D} (P : A -> B -> Prop) (Q : C -> D -> Prop) m1 m2 f1 f2 :
  de P m1 m2 -> (forall a b, P a b -> de Q (f1 a) (f2 b)) -> de Q (d_bind m1 f1) (d_bind m2 f2).
Proof.
  intros H K c1 c2 C0. unfold d_bind. specialize (H c1 c2 C0).
  destruct (m1 c1) as [c1' o1], (m2 c2) as [c2' o2]. inv H.
  match goal with X : dout_alike _ _ _ _ |- _ => inv X end.
  - apply K; assumption.
  - constructor; [assumption|constructor; assumption].
  - constructor; [assumption|constructor].
Qed.

Lemma a_map {A B C D} (P : A -> B -> Prop) (Q : C -> D -> Prop) m1 m2 f1 f2 :
  de P m1 m2 -> (forall a b, P a b -> Q (f1 a) (f2 b)) -> de Q (d_map f1 m1) (d_map f2 m2).
Proof. intros H K. apply a_bind with P; [exact H|]. intros a b X. apply a_ok, K, X. Qed.

Lemma a_collect {A B C D} (X : A -> B -> Prop) (P : C -> D -> Prop) f1 f2 l1 l2 :
  Forall2 X l1 l2 -> (forall x y, X x y -> de P (f1 x) (f2 y)) ->
  de (Forall2 P) (d_collect f1 l1) (d_collect f2 l2).
Proof.
  intros H K. induction H; cbn [d_collect]; [apply a_ok; constructor|].
  eapply a_bind; [apply K; eassumption|]. intros a b Y.
  eapply a_bind; [exact IHForall2|]. intros as_ bs Z. apply a_ok. constructor; assumption.
Qed.

Lemma a_weaken {A B} (P Q : A -> B -> Prop) m1 m2 :
  de P m1 m2 -> (forall a b, P a b -> Q a b) -> de Q m1 m2.
Proof.
  intros H K c1 c2 C. specialize (H c1 c2 C). inv H. constructor; [assumption|].
  match goal with X : dout_alike _ _ _ _ |- _ => inv X end; constructor; auto.
Qed.

(** ** Errors *)

Lemma sp_value {A B} (P : A -> B -> Prop) s1 s2 : spanned_alike R P s1 s2 -> P (s_value s1) (s_value s2).
Proof. intro H. inv H. assumption. Qed.
Lemma sp_span {A B} (P : A -> B -> Prop) s1 s2 : spanned_alike R P s1 s2 -> R (s_span s1) (s_span s2).
Proof. intro H. inv H. assumption. Qed.

Lemma err_conversion {A B} (P : A -> B -> Prop) s1 s2 e : spanned_alike R P s1 s2 ->
  err (conversion s1 e) (conversion s2 e).
Proof. intro H. constructor. exact (sp_span _ _ _ H). Qed.

Lemma err_unexpected {A B} (P : A -> B -> Prop) s1 s2 w m : spanned_alike R P s1 s2 ->
  err (unexpected s1 w m) (unexpected s2 w m).
Proof. intro H. constructor. exact (sp_span _ _ _ H). Qed.

Lemma err_kind k s1 s2 : sp s1 s2 -> err (scalar_kind k s1) (scalar_kind k s2).
Proof. intro H. inv H. constructor. assumption. Qed.

Lemma node_name_alike n1 n2 : node_alike R n1 n2 -> sp (n_node_name n1) (n_node_name n2).
Proof. intro H. inv H. assumption. Qed.

Lemma err_missing n1 n2 m : sn n1 n2 -> err (missing n1 m) (missing n2 m).
Proof. intro H. constructor. apply (sp_span eq), node_name_alike, (sp_value _ _ _ H). Qed.

Lemma va_literal v1 v2 : va v1 v2 -> sp (v_literal v1) (v_literal v2).
Proof. intro H. inv H. assumption. Qed.
Lemma va_type v1 v2 : va v1 v2 -> opt_alike sp (v_type_name v1) (v_type_name v2).
Proof. intro H. inv H. assumption. Qed.

Lemma err_arg v1 v2 : va v1 v2 -> err (unexpected_arg v1) (unexpected_arg v2).
Proof. intro H. apply (err_unexpected eq), va_literal, H. Qed.

Lemma err_prop k1 k2 : sp k1 k2 -> err (unexpected_prop k1) (unexpected_prop k2).
Proof. intro H. unfold unexpected_prop. rewrite (sp_value _ _ _ H). apply (err_unexpected eq), H. Qed.

Lemma err_node n1 n2 : sn n1 n2 -> err (unexpected_node n1) (unexpected_node n2).
Proof.
  intro H. unfold unexpected_node.
  rewrite (sp_value _ _ _ (node_name_alike _ _ (sp_value _ _ _ H))).
  apply (err_unexpected (node_alike R)), H.
Qed.

Lemma a_convert {A B C D} (T : A -> B -> Prop) (P : C -> D -> Prop) s1 s2 r1 r2 :
  spanned_alike R T s1 s2 -> sum_alike P r1 r2 -> de P (d_convert s1 r1) (d_convert s2 r2).
Proof.
  intros H K. inv K; cbn [d_convert]; [apply a_ok; assumption|apply a_err].
  apply (err_conversion T), H.
Qed.

Lemma bytes_alike v1 v2 c1 c2 : va v1 v2 -> ctx c1 c2 ->
  pair_alike ctx eq (bytes v1 c1) (bytes v2 c2).
Proof.
  intros V C. destruct V as [t1 t2 l1 l2 T S]. unfold bytes. cbn [v_type_name v_literal].
  pose proof (sp_value _ _ _ S) as E.
  inv T.
  - rewrite <- E. destruct (s_value l1); constructor; try reflexivity; try assumption;
      apply ctx_emit; try assumption; apply err_kind, S.
  - match goal with X : spanned_alike R eq _ _ |- _ => inv X end. cbn [s_value s_span].
    match goal with |- context [typename_as_builtin ?x] => destruct (typename_as_builtin x) as [[]|] end;
    try (constructor; [apply ctx_emit; [constructor; assumption|assumption]|reflexivity]).
    rewrite <- E. destruct (s_value l1) as [|?|? ?|?|s];
      try (constructor; [apply ctx_emit; [apply err_kind, S|assumption]|reflexivity]).
    destruct (b64_decode (utf8 s)); constructor; try reflexivity; try assumption.
    apply ctx_emit; [apply (err_conversion eq), S|assumption].
Qed.

Lemma ctx_fold {A B} (X : A -> B -> Prop) f1 f2 l1 l2 : Forall2 X l1 l2 ->
  (forall a b, X a b -> err (f1 a) (f2 b)) -> forall c1 c2, ctx c1 c2 ->
  ctx (fold_left (fun c a => emit_error (f1 a) c) l1 c1) (fold_left (fun c a => emit_error (f2 a) c) l2 c2).
Proof.
  intros H K. induction H; intros c1 c2 C; cbn [fold_left]; [exact C|].
  apply IHForall2, ctx_emit; auto.
Qed.

Lemma flag_alike n1 n2 c1 c2 : sn n1 n2 -> ctx c1 c2 ->
  ctx (check_flag_node n1 c1) (check_flag_node n2 c2).
Proof.
  intros N C. destruct N as [s1 s2 m1 m2 S M]. destruct M as [t1 t2 nm1 nm2 a1 a2 p1 p2 ch1 ch2 T NM AR PR CH].
  unfold check_flag_node. cbn [s_value n_arguments n_properties n_children].
  assert (X : ctx
    (fold_left (fun c kv => emit_error (unexpected_prop (fst kv)) c) p1
       (fold_left (fun c v => emit_error (unexpected_arg v) c) a1 c1))
    (fold_left (fun c kv => emit_error (unexpected_prop (fst kv)) c) p2
       (fold_left (fun c v => emit_error (unexpected_arg v) c) a2 c2))).
  { apply (ctx_fold (pair_alike sp va) (fun kv => unexpected_prop (fst kv)) (fun kv => unexpected_prop (fst kv)) _ _ PR).
    - intros x y XY. inv XY. apply err_prop. assumption.
    - apply (ctx_fold va unexpected_arg unexpected_arg _ _ AR); [|exact C]. intros. apply err_arg. assumption. }
  inv CH; [exact X|].
  apply (ctx_fold sn unexpected_node unexpected_node); [|intros; apply err_node; assumption|exact X].
  apply (sp_value (Forall2 (spanned_alike R (node_alike R)))). assumption.
Qed.

(** ** Values *)

Lemma a_str_type v1 v2 : va v1 v2 -> de eq (str_type_name v1) (str_type_name v2).
Proof.
  intro V. unfold str_type_name. pose proof (va_type _ _ V) as T. inv T; [apply a_ok; reflexivity|].
  match goal with X : spanned_alike R eq _ _ |- _ => inv X end. apply a_emit. constructor. assumption.
Qed.

Lemma a_decode_value mode o (i1 : tyimpl Sp1 L1) (i2 : tyimpl Sp2 L2) v1 v2 :
  type_alike R RL i1 i2 -> va v1 v2 -> de dv (decode_value mode o i1 v1) (decode_value mode o i2 v2).
Proof.
  intros I V. pose proof (va_literal _ _ V) as S. pose proof (sp_value _ _ _ S) as E.
  unfold decode_value. destruct mode.
  - apply (ta_scalar _ _ _ _ I), V.
  - destruct o; (eapply a_bind; [apply a_str_type, V|intros _ _ _]); rewrite <- E;
      destruct (s_value (v_literal v1)) as [|?|? ?|?|s];
      try (apply a_err, err_kind, S); try (apply a_ok; constructor);
      try (eapply a_bind; [apply a_emit, err_kind, S|intros _ _ _; apply a_ok; constructor]).
    + eapply a_map; [eapply a_convert; [exact S|apply (ta_from_str _ _ _ _ I)]|].
      intros a b X. constructor. exact X.
    + eapply a_convert; [exact S|apply (ta_from_str _ _ _ _ I)].
  - assert (B : forall c1 c2, ctx c1 c2 -> pair_alike ctx (fun b1 b2 => b1 = b2 /\
        sum_alike dv (ti_from_bytes i1 b1) (ti_from_bytes i2 b2)) (bytes v1 c1) (bytes v2 c2)).
    { intros c1 c2 C. pose proof (bytes_alike _ _ _ _ V C) as X.
      destruct (bytes v1 c1), (bytes v2 c2). inv X. constructor; [assumption|].
      split; [reflexivity|apply (ta_from_bytes _ _ _ _ I)]. }
    assert (F : de dv (fun c => let '(c', b) := bytes v1 c in
        d_convert (v_literal v1) (ti_from_bytes i1 b) c')
      (fun c => let '(c', b) := bytes v2 c in d_convert (v_literal v2) (ti_from_bytes i2 b) c')).
    { intros c1 c2 C. specialize (B c1 c2 C). destruct (bytes v1 c1), (bytes v2 c2). inv B.
      match goal with X : _ /\ _ |- _ => destruct X as [-> Y] end.
      apply (a_convert eq dv _ _ _ _ S Y). assumption. }
    assert (O : de dv (fun c => let '(c', b) := bytes v1 c in
        match ti_from_bytes i1 b with
        | inl x => (c', DOk (VSome x))
        | inr e => (emit_error (conversion (v_literal v1) e) c', DOk VNone) end)
      (fun c => let '(c', b) := bytes v2 c in
        match ti_from_bytes i2 b with
        | inl x => (c', DOk (VSome x))
        | inr e => (emit_error (conversion (v_literal v2) e) c', DOk VNone) end)).
    { intros c1 c2 C. specialize (B c1 c2 C). destruct (bytes v1 c1) as [c1' b1], (bytes v2 c2) as [c2' b2]. inv B.
      match goal with X : _ /\ _ |- _ => destruct X as [-> Y] end.
      inv Y.
      - constructor; [assumption|constructor; constructor; assumption].
      - constructor; [|constructor; constructor].
        apply ctx_emit; [apply (err_conversion eq), S|assumption]. }
    destruct o; [|exact F]. rewrite <- E. destruct (s_value (v_literal v1)); try exact O.
    apply a_ok. constructor.
Qed.

(** ** Tables *)

Definition fl (f1 : field Sp1 L1) (f2 : field Sp2 L2) : Prop :=
  f_attr f1 = f_attr f2 /\ type_alike R RL (f_impl f1) (f_impl f2).

Inductive arg_alike : arg Sp1 L1 -> arg Sp2 L2 -> Prop :=
| ArA f1 f2 k m d1 d2 o : fl f1 f2 -> opt_alike dv d1 d2 -> arg_alike (Arg f1 k m d1 o) (Arg f2 k m d2 o).
Inductive prop_alike : prop Sp1 L1 -> prop Sp2 L2 -> Prop :=
| PrA f1 f2 n o m fl_ d1 d2 : fl f1 f2 -> opt_alike dv d1 d2 ->
    prop_alike (DeriveDef.Prop_ f1 n o m fl_ d1) (DeriveDef.Prop_ f2 n o m fl_ d2).
Inductive child_alike : child Sp1 L1 -> child Sp2 L2 -> Prop :=
| ChA f1 f2 n o m u1 u2 d1 d2 : fl f1 f2 -> opt_alike (attrs_alike RL) u1 u2 -> opt_alike dv d1 d2 ->
    child_alike (Child f1 n o m u1 d1) (Child f2 n o m u2 d2).

Inductive builder_alike : builder Sp1 L1 -> builder Sp2 L2 -> Prop :=
| BA i s1 s2 n1 n2 t1 t2 a1 a2 va1 va2 p1 p2 vp1 vp2 c1 c2 vc1 vc2 x1 x2 em :
    Forall2 fl s1 s2 -> Forall2 fl n1 n2 -> Forall2 (pair_alike fl eq) t1 t2 ->
    Forall2 arg_alike a1 a2 -> opt_alike (pair_alike fl eq) va1 va2 ->
    Forall2 prop_alike p1 p2 -> opt_alike (pair_alike fl eq) vp1 vp2 ->
    Forall2 child_alike c1 c2 -> opt_alike (pair_alike fl (opt_alike (attrs_alike RL))) vc1 vc2 ->
    Forall2 (pair_alike fl eq) x1 x2 ->
    builder_alike (Builder i s1 n1 t1 a1 va1 p1 vp1 c1 vc1 x1 em)
                  (Builder i s2 n2 t2 a2 va2 p2 vp2 c2 vc2 x2 em).

Inductive struct_alike : struct Sp1 L1 -> struct Sp2 L2 -> Prop :=
| StA i s1 s2 n1 n2 t1 t2 a1 a2 va1 va2 p1 p2 vp1 vp2 ha hp c1 c2 vc1 vc2 x1 x2 :
    Forall2 fl s1 s2 -> Forall2 fl n1 n2 -> Forall2 (pair_alike fl eq) t1 t2 ->
    Forall2 arg_alike a1 a2 -> opt_alike (pair_alike fl eq) va1 va2 ->
    Forall2 prop_alike p1 p2 -> opt_alike (pair_alike fl eq) vp1 vp2 ->
    Forall2 child_alike c1 c2 -> opt_alike (pair_alike fl (opt_alike (attrs_alike RL))) vc1 vc2 ->
    Forall2 (pair_alike fl eq) x1 x2 ->
    struct_alike (Struct i s1 n1 t1 a1 va1 p1 vp1 ha hp c1 vc1 x1)
                 (Struct i s2 n2 t2 a2 va2 p2 vp2 ha hp c2 vc2 x2).

Lemma build_alike b1 b2 : builder_alike b1 b2 -> struct_alike (build b1) (build b2).
Proof.
  intro H. inv H. unfold build. cbn [sb_ident sb_spans sb_node_names sb_type_names sb_arguments
    sb_var_args sb_properties sb_var_props sb_children sb_var_children sb_extra].
  rewrite (F2_nil arg_alike a1 a2), (F2_nil prop_alike p1 p2) by assumption.
  rewrite (opt_some (pair_alike fl eq) va1 va2), (opt_some (pair_alike fl eq) vp1 vp2) by assumption.
  constructor; assumption.
Qed.

Lemma builder_new_alike i : builder_alike (builder_new i) (builder_new i).
Proof. repeat constructor. Qed.

Lemma emit_all_alike b1 b2 em : builder_alike b1 b2 -> builder_alike (emit_all b1 em) (emit_all b2 em).
Proof. intro H. inv H. cbn [emit_all]. constructor; assumption. Qed.

Lemma attrs_decode a1 a2 : attrs_alike RL a1 a2 -> fa_decode a1 = fa_decode a2.
Proof. intro H. inv H. reflexivity. Qed.
Lemma attrs_unwrap a1 a2 : attrs_alike RL a1 a2 -> opt_alike (attrs_alike RL) (fa_unwrap a1) (fa_unwrap a2).
Proof. intro H. inv H. assumption. Qed.

Lemma add_field_alike kebab b1 b2 f1 f2 o b a1 a2 :
  builder_alike b1 b2 -> fl f1 f2 -> attrs_alike RL a1 a2 ->
  sum_alike builder_alike (add_field kebab b1 f1 o b a1) (add_field kebab b2 f2 o b a2).
Proof.
  intros B F A. inv B. inv A. unfold add_field, no_decode.
  cbn [fa_mode fa_decode fa_unwrap fa_default].
  pose proof (proj1 F) as EA. rewrite <- EA.
  assert (EU : is_some u1 = is_some u2) by (eapply opt_some; eassumption). rewrite <- EU.
  assert (EP : is_some vp1 = is_some vp2) by (eapply opt_some; eassumption). rewrite <- EP.
  assert (EC : is_some vc1 = is_some vc2) by (eapply opt_some; eassumption). rewrite <- EC.
  destruct m as [[|[n|]| | |[n|]| |c p| | |]|];
    repeat match goal with
    | X : opt_alike _ ?x _ |- context [match ?x with _ => _ end] => inv X
    | |- context [match f_attr f1 with _ => _ end] => destruct (f_attr f1)
    | |- context [if ?x then _ else _] => destruct x
    end;
    try (constructor; fail);
    constructor; constructor; try assumption;
    try (apply F2_snoc; [assumption|]);
    try (constructor; try assumption; try reflexivity; constructor; fail);
    try (constructor; constructor; try assumption; reflexivity).
  all: try exact F; try reflexivity; try assumption.
Qed.

Lemma update_alike st1 st2 a1 a2 :
  pair_alike (attrs_alike RL) eq st1 st2 -> attr_alike RL a1 a2 ->
  pair_alike (attrs_alike RL) eq (update_attr st1 a1) (update_attr st2 a2).
Proof.
  intros S A. inv S. match goal with X : attrs_alike _ _ _ |- _ => inv X end.
  unfold update_attr. inv A; try (constructor; [constructor; assumption|reflexivity]).
  - constructor; [constructor; [constructor|]; assumption|]. f_equal.
    rewrite (opt_some (attrs_alike RL) u1 u2) by assumption. reflexivity.
  - constructor; [constructor; [|constructor]; assumption|]. f_equal.
    match goal with |- context [is_some ?x] => match goal with X : opt_alike _ x _ |- _ =>
      rewrite (opt_some _ _ _ X) end end. reflexivity.
Qed.

Lemma attrs_update_alike l1 l2 : Forall2 (attr_alike RL) l1 l2 ->
  pair_alike (attrs_alike RL) eq (attrs_update l1) (attrs_update l2).
Proof.
  intro H. unfold attrs_update.
  assert (S : pair_alike (attrs_alike RL) eq (@attrs_new L1, @nil text) (@attrs_new L2, @nil text))
    by (repeat constructor).
  revert S. generalize (@attrs_new L1, @nil text), (@attrs_new L2, @nil text).
  induction H; intros s1 s2 S; cbn [fold_left]; [exact S|]. apply IHForall2, update_alike; assumption.
Qed.

Lemma add_fields_alike kebab fs1 fs2 : Forall2 (field_alike R RL) fs1 fs2 -> forall idx b1 b2,
  builder_alike b1 b2 ->
  sum_alike builder_alike (add_fields kebab b1 idx fs1) (add_fields kebab b2 idx fs2).
Proof.
  intro H. induction H as [|x y l1 l2 XY H IH]; intros idx b1 b2 B; cbn [add_fields]; [constructor; exact B|].
  inv XY. cbn [sf_attrs sf_name sf_impl sf_type].
  match goal with X : Forall2 (attr_alike RL) _ _ |- _ => pose proof (attrs_update_alike _ _ X) as U end.
  destruct (attrs_update a1) as [u1 em1], (attrs_update a2) as [u2 em2]. inv U.
  match goal with |- context [add_field kebab ?x ?f ?o ?bb ?a] =>
    match goal with |- context [add_field kebab (emit_all b2 em2) ?f' ?o' ?bb' ?a'] =>
      assert (K : sum_alike builder_alike (add_field kebab x f o bb a)
                    (add_field kebab (emit_all b2 em2) f' o' bb' a')) end end.
  { apply add_field_alike; [apply emit_all_alike, B|split; [reflexivity|assumption]|assumption]. }
  inv K; [apply IH; assumption|constructor].
Qed.

Lemma struct_new_alike kebab i fs1 fs2 : Forall2 (field_alike R RL) fs1 fs2 ->
  sum_alike (pair_alike struct_alike eq) (struct_new kebab i fs1) (struct_new kebab i fs2).
Proof.
  intro H. unfold struct_new. pose proof (add_fields_alike kebab _ _ H 0 _ _ (builder_new_alike i)) as K.
  inv K; [|constructor]. constructor. constructor; [apply build_alike; assumption|].
  match goal with X : builder_alike _ _ |- _ => inv X end. reflexivity.
Qed.

Lemma all_fields_alike s1 s2 : struct_alike s1 s2 -> Forall2 fl (all_fields s1) (all_fields s2).
Proof.
  intro H. inv H. unfold all_fields.
  cbn [st_spans st_node_names st_type_names st_arguments st_var_args st_properties st_var_props
    st_children st_var_children st_extra].
  assert (F : forall l1 l2, Forall2 (pair_alike fl (@eq bool)) l1 l2 -> Forall2 fl (map fst l1) (map fst l2)).
  { intros l1 l2 X. eapply F2_map; [|exact X]. intros a b Y. inv Y. assumption. }
  repeat apply F2_app; auto.
  - eapply F2_map; [|eassumption]. intros a b Y. inv Y. assumption.
  - match goal with X : opt_alike _ va1 _ |- _ => inv X end; [constructor|].
    match goal with X : pair_alike fl _ _ _ |- _ => inv X end. apply F2_one. assumption.
  - eapply F2_map; [|eassumption]. intros a b Y. inv Y. assumption.
  - match goal with X : opt_alike _ vp1 _ |- _ => inv X end; [constructor|].
    match goal with X : pair_alike fl _ _ _ |- _ => inv X end. apply F2_one. assumption.
  - eapply F2_map; [|eassumption]. intros a b Y. inv Y. assumption.
  - match goal with X : opt_alike _ vc1 _ |- _ => inv X end; [constructor|].
    match goal with X : pair_alike fl _ _ _ |- _ => inv X end. apply F2_one. assumption.
Qed.

End Alike.
