(** Properties of the scalar decoders. *)

From Coq Require Import NArith ZArith List Bool Lia String.
From Verif Require Import Chars Ast Errors Chumsky Kdl KdlChars LexIdent
  Decode Scalar Containers DecodeSpec IntProps.
Import ListNotations.
Local Open Scope N_scope.

Lemma text_eqb_reflect a b : reflect (a = b) (text_eqb a b).
Proof. apply iff_reflect. symmetry. apply text_eqb_spec. Qed.

Section Scalars.
Context {Sp : Type}.
Implicit Types (c : context Sp) (v : value Sp).

Lemma ctx_grows c e es : c = Context (c_errors c ++ e :: es) (c_ext c) -> False.
Proof.
  intros K. apply (f_equal (fun c => List.length (c_errors c))) in K. cbn in K.
  rewrite app_length in K. cbn in K. lia.
Qed.

Ltac grown K := exfalso; apply (f_equal (fun c => List.length (c_errors c))) in K;
  unfold emit_error in K; cbn [c_errors] in K; rewrite ?app_length in K;
  cbn [List.length] in K; lia.

(** Where a decoder is either clean or adds errors. *)
Lemma fails_not_decodes {A} (m : dec Sp A) c a : fails m c -> decodes m c a -> False.
Proof.
  unfold fails, decodes. intros F D. rewrite D in F. destruct F as (e & es & F).
  apply (f_equal (@List.length _)) in F. rewrite app_length in F. cbn in F. lia.
Qed.

Lemma fails_one {A} (m : dec Sp A) c e x a : m c = (Context (c_errors c ++ [e]) x, DOk a) ->
  fails m c.
Proof. unfold fails. intros ->. cbn. eauto. Qed.

Lemma fails_two {A} (m : dec Sp A) c e e' x a :
  m c = (Context ((c_errors c ++ [e]) ++ [e']) x, DOk a) -> fails m c.
Proof. unfold fails. intros ->. cbn. exists e, [e']. rewrite <- app_assoc. reflexivity. Qed.

(** The result of the type check of a number. *)
Lemma number_check marker name (ty : option (spanned typename Sp)) c :
  (typed_as (builtin_as_str marker) ty /\ number_type_check marker name ty c = c)
  \/ (~ typed_as (builtin_as_str marker) ty
      /\ exists e, number_type_check marker name ty c = emit_error e c).
Proof.
  unfold number_type_check, typed_as. destruct ty as [[sp [b|n]]|]; cbn [s_value s_span].
  - cbn [typename_as_builtin]. destruct (builtin_eqb b marker) eqn:E.
    + left. split; auto. right. exists sp, b. split; auto.
      destruct b, marker; try discriminate; reflexivity.
    + right. split; [|eauto]. intros [K|(sp' & b' & K & E')]; [discriminate|].
      injection K as <- <-. destruct b, marker; vm_compute in E; try discriminate; vm_compute in E'; discriminate.
  - cbn [typename_as_builtin]. right. split; [|eauto].
    intros [K|(sp' & b' & K & E')]; discriminate.
  - left. auto.
Qed.

Lemma no_type_check_cases name (ty : option (spanned typename Sp)) c :
  (ty = None /\ no_type_check name ty c = c)
  \/ (ty <> None /\ exists e, no_type_check name ty c = emit_error e c).
Proof.
  unfold no_type_check. destruct ty as [typ|]; [right; split; [discriminate|eauto]|left; auto].
Qed.

Lemma float_decodes_iff {F} ft (from_str : text -> option F) zero v c x :
  decodes (sc_decode (float_impl ft from_str zero) v) c x <->
  exists s, s_value (v_literal v) = LDecimal s /\ from_str s = Some x
    /\ typed_as (float_rust_name ft) (v_type_name v).
Proof.
  unfold decodes. cbn [float_impl scalar_default sc_decode]. unfold default_decode.
  assert (NM : builtin_as_str (float_marker ft) = float_rust_name ft) by (destruct ft; reflexivity).
  pose proof (number_check (float_marker ft) (builtin_as_str (float_marker ft))
                (v_type_name v) c) as [[T ->]|[T [e ->]]]; rewrite NM in T; unfold float_raw_decode.
  - destruct (s_value (v_literal v)) as [|b|r s|s|s] eqn:L;
      try (split; [intros K; injection K as K _; grown K
                  |intros (s' & K & _); discriminate]).
    destruct (from_str s) as [x'|] eqn:P.
    + split.
      * intros K. injection K as ->. eauto.
      * intros (s' & K & P' & _). injection K as <-. rewrite P in P'. injection P' as ->. auto.
    + split.
      * intros K. injection K as K _; grown K.
      * intros (s' & K & P' & _). injection K as <-. congruence.
  - split; [|intros (s' & _ & _ & K); contradiction]. intros K. exfalso.
    destruct (s_value (v_literal v)) as [|b|r s|s|s];
      [| | |destruct (from_str s)|]; injection K as K _; grown K.
Qed.

Lemma float_total {F} ft (from_str : text -> option F) zero v c :
  (exists x, decodes (sc_decode (float_impl ft from_str zero) v) c x)
  \/ fails (sc_decode (float_impl ft from_str zero) v) c.
Proof.
  unfold decodes. cbn [float_impl scalar_default sc_decode]. unfold default_decode.
  pose proof (number_check (float_marker ft) (builtin_as_str (float_marker ft))
                (v_type_name v) c) as [[T E]|[T [e E]]]; unfold fails, default_decode; rewrite E;
    unfold float_raw_decode.
  - destruct (s_value (v_literal v)) as [|b|r s|s|s]; [| | |destruct (from_str s)|]; cbn; eauto.
  - right. destruct (s_value (v_literal v)) as [|b|r s|s|s]; [| | |destruct (from_str s)|]; cbn;
    rewrite <- ?app_assoc; cbn; eauto.
Qed.

Lemma int_decodes_iff t v c z :
  decodes (sc_decode (int_impl t) v) c z <->
  exists r s, s_value (v_literal v) = LInt r s /\ integer_value (radix_base r) s z /\ fits t z
    /\ (takes_minus t \/ hd_error s <> Some 0x2D) /\ typed_as (int_rust_name t) (v_type_name v).
Proof.
  split.
  - intros H. pose proof H as H'. apply int_only in H as (r & s & L & V & F & T).
    exists r, s. repeat (split; auto).
    unfold decodes in H'. destruct v as [ty [sp lit]]. cbn [v_literal s_value v_type_name] in *.
    subst lit. cbn [int_impl scalar_default sc_decode] in H'. unfold default_decode in H'.
    cbn [v_type_name v_literal] in H'.
    rewrite number_type_ok in H' by (apply typed_for_marker; exact T).
    unfold int_raw_decode in H'. cbn [s_value] in H'. rewrite try_from_radix in H'.
    destruct (base_ok r) as [B1 B2].
    destruct (from_str_radix t (radix_base r) s) as [z'|e] eqn:E.
    + apply from_str_exact in E as (_ & _ & S); auto.
    + injection H' as K _. grown K.
  - intros (r & s & L & V & F & S & T). destruct v as [ty [sp lit]].
    cbn [v_literal s_value v_type_name] in *. subst lit. apply int_exact; auto.
Qed.

Lemma int_total t v c :
  (exists z, decodes (sc_decode (int_impl t) v) c z) \/ fails (sc_decode (int_impl t) v) c.
Proof.
  unfold decodes. cbn [int_impl scalar_default sc_decode]. unfold default_decode.
  pose proof (number_check (int_marker t) (int_name t) (v_type_name v) c) as [[T E]|[T [e E]]];
    unfold fails, default_decode; rewrite E; unfold int_raw_decode.
  - destruct (s_value (v_literal v)) as [|b|r s|s|s]; [| |destruct (int_try_from t r s)| |];
      cbn; eauto.
  - right. destruct (s_value (v_literal v)) as [|b|r s|s|s]; [| |destruct (int_try_from t r s)| |];
      cbn; rewrite <- ?app_assoc; cbn; eauto.
Qed.

Lemma string_decodes_iff t v c x :
  decodes (sc_decode (string_impl t) v) c x <->
  s_value (v_literal v) = LString x /\ v_type_name v = None.
Proof.
  unfold decodes. cbn [string_impl scalar_default sc_decode]. unfold default_decode.
  destruct (no_type_check_cases (string_type_name t) (v_type_name v) c)
    as [[T ->]|[T [e ->]]]; unfold string_raw_decode.
  - destruct (s_value (v_literal v)) as [|b|r s|s|s];
      try (split; [intros K; injection K as K _; grown K
                  |intros (K & _); discriminate]).
    split; [intros K; injection K as ->; auto|intros (K & _); injection K as ->; auto].
  - split; [|intros (_ & K); contradiction]. intros K. exfalso.
    destruct (s_value (v_literal v)) as [|b|r s|s|s]; injection K as K _; grown K.
Qed.

Lemma string_total t v c :
  (exists x, decodes (sc_decode (string_impl t) v) c x) \/ fails (sc_decode (string_impl t) v) c.
Proof.
  unfold decodes. cbn [string_impl scalar_default sc_decode]. unfold default_decode.
  destruct (no_type_check_cases (string_type_name t) (v_type_name v) c)
    as [[T E]|[T [e E]]]; unfold fails, default_decode; rewrite E; unfold string_raw_decode.
  - destruct (s_value (v_literal v)) as [|b|r s|s|s]; cbn; eauto.
  - right. destruct (s_value (v_literal v)) as [|b|r s|s|s]; cbn; rewrite <- ?app_assoc; cbn; eauto.
Qed.

Lemma bool_decodes_iff v c x :
  decodes (sc_decode bool_impl v) c x <->
  s_value (v_literal v) = LBool x /\ v_type_name v = None.
Proof.
  unfold decodes. cbn [bool_impl scalar_default sc_decode]. unfold default_decode.
  destruct (no_type_check_cases (str "bool") (v_type_name v) c)
    as [[T ->]|[T [e ->]]]; unfold bool_raw_decode.
  - destruct (s_value (v_literal v)) as [|b|r s|s|s];
      try (split; [intros K; injection K as K _; grown K
                  |intros (K & _); discriminate]).
    split; [intros K; injection K as ->; auto|intros (K & _); injection K as ->; auto].
  - split; [|intros (_ & K); contradiction]. intros K. exfalso.
    destruct (s_value (v_literal v)) as [|b|r s|s|s]; injection K as K _; grown K.
Qed.

Lemma bool_total v c :
  (exists x, decodes (sc_decode bool_impl v) c x) \/ fails (sc_decode bool_impl v) c.
Proof.
  unfold decodes. cbn [bool_impl scalar_default sc_decode]. unfold default_decode.
  destruct (no_type_check_cases (str "bool") (v_type_name v) c)
    as [[T E]|[T [e E]]]; unfold fails, default_decode; rewrite E; unfold bool_raw_decode.
  - destruct (s_value (v_literal v)) as [|b|r s|s|s]; cbn; eauto.
  - right. destruct (s_value (v_literal v)) as [|b|r s|s|s]; cbn; rewrite <- ?app_assoc; cbn; eauto.
Qed.

(** ** C41 *)

Lemma match_name_in {A} s (l : list (text * A)) a : NoDup (map fst l) ->
  match_name s l = Some a <-> In (s, a) l.
Proof.
  induction l as [|[n b] l IH]; cbn [match_name map fst In]; intros ND.
  - split; [discriminate|tauto].
  - apply NoDup_cons_iff in ND as [N1 N2].
    destruct (text_eqb_reflect s n) as [->|N].
    + split.
      * intros K. injection K as ->. auto.
      * intros [K|K]; [injection K as ->; auto|].
        exfalso. apply N1. apply in_map_iff. exists (n, a). auto.
    + rewrite IH by auto. split; auto. intros [K|K]; auto. injection K as -> _. contradiction.
Qed.

Lemma enum_decodes_iff {A} name (l : list (text * A)) v c a : NoDup (map fst l) ->
  decodes (sc_decode (scalar_enum_impl name l) v) c a <->
  (exists s, s_value (v_literal v) = LString s /\ In (s, a) l) /\ v_type_name v = None.
Proof.
  intros ND.
  unfold decodes. cbn [scalar_enum_impl scalar_default sc_decode]. unfold default_decode.
  destruct (no_type_check_cases name (v_type_name v) c)
    as [[T ->]|[T [e ->]]]; unfold scalar_enum_raw.
  - destruct (s_value (v_literal v)) as [|b|r s|s|s];
      try (split; [intros K; discriminate|intros ((s' & K & _) & _); discriminate]).
    destruct (match_name s l) as [a'|] eqn:M.
    + split.
      * intros K. injection K as ->. apply match_name_in in M; auto. eauto.
      * intros ((s' & K & I) & _). injection K as <-. apply match_name_in in I; auto.
        rewrite M in I. injection I as ->. reflexivity.
    + split; [discriminate|]. intros ((s' & K & I) & _). injection K as <-.
      apply match_name_in in I; auto. congruence.
  - split; [|intros (_ & K); contradiction]. intros K. exfalso.
    destruct (s_value (v_literal v)) as [|b|r s|s|s]; try discriminate.
    destruct (match_name s l); try discriminate.
    injection K as K _; grown K.
Qed.

Lemma enum_total {A} name (l : list (text * A)) v c :
  (exists a, decodes (sc_decode (scalar_enum_impl name l) v) c a)
  \/ fails (sc_decode (scalar_enum_impl name l) v) c.
Proof.
  unfold decodes. cbn [scalar_enum_impl scalar_default sc_decode]. unfold default_decode.
  destruct (no_type_check_cases name (v_type_name v) c)
    as [[T E]|[T [e E]]]; unfold fails, default_decode; rewrite E; unfold scalar_enum_raw.
  - destruct (s_value (v_literal v)) as [|b|r s|s|s]; try (right; exact I).
    destruct (match_name s l); [left; eexists; reflexivity|right; exact I].
  - right. destruct (s_value (v_literal v)) as [|b|r s|s|s]; try exact I.
    destruct (match_name s l); cbn; [eauto|exact I].
Qed.

(** ** C28 *)

Lemma plain_default {A} tc (rd : spanned literal Sp -> dec Sp A) : plain (scalar_default tc rd).
Proof. intros v c. reflexivity. Qed.

Lemma map_same {A B} (f : A -> B) (m : dec Sp A) c : same_but f (m c) (d_map f m c).
Proof.
  unfold same_but, d_map, d_bind. destruct (m c) as [c' [a|e|]]; cbn; auto.
Qed.

Lemma wrapped_same {A B} (wrap : A -> B) (i : scalar_impl Sp A) v c : plain i ->
  same_but wrap (sc_decode i v c) (sc_decode (wrapped_impl wrap i) v c).
Proof.
  intros P. rewrite P. cbn [wrapped_impl scalar_default sc_decode]. unfold default_decode.
  apply map_same.
Qed.

Lemma option_null {A} (i : scalar_impl Sp A) v c : s_value (v_literal v) = LNull ->
  sc_decode (option_impl i) v c = (sc_type_check i (v_type_name v) c, DOk None).
Proof.
  intros L. cbn [option_impl scalar_default sc_decode]. unfold default_decode. rewrite L.
  reflexivity.
Qed.

Lemma option_other {A} (i : scalar_impl Sp A) v c : plain i -> s_value (v_literal v) <> LNull ->
  same_but Some (sc_decode i v c) (sc_decode (option_impl i) v c).
Proof.
  intros P L. rewrite P. cbn [option_impl scalar_default sc_decode]. unfold default_decode.
  destruct (s_value (v_literal v)); try contradiction; apply map_same.
Qed.

Lemma option_none_iff {A} (i : scalar_impl Sp A) v c c' : plain i ->
  sc_decode (option_impl i) v c = (c', DOk None) ->
  s_value (v_literal v) = LNull.
Proof.
  intros P H. destruct (s_value (v_literal v)) eqn:L; auto; exfalso;
    (assert (N : s_value (v_literal v) <> LNull) by (rewrite L; discriminate));
    pose proof (option_other i v c P N) as [_ S]; rewrite H in S;
    destruct (snd (sc_decode i v c)); cbn in S; congruence.
Qed.

Lemma spanned_same {A Q} (g : Sp -> Q) (i : scalar_impl Sp A) v c : plain i ->
  same_but (fun a => Spanned (g (s_span (v_literal v))) a) (sc_decode i v c)
    (sc_decode (spanned_impl (fun sp c => (c, g sp)) i) v c).
Proof.
  intros P. rewrite P. cbn [spanned_impl scalar_default sc_decode]. unfold default_decode.
  unfold same_but, d_bind.
  destruct (sc_raw_decode i (v_literal v) _) as [c' [a|e|]]; cbn; auto.
Qed.

(** ** C32, C49 *)

Lemma builtin_round b : b <> Usize -> b <> Isize -> builtin_from_str (builtin_as_str b) = Some b.
Proof. destruct b; try reflexivity; contradiction. Qed.

Lemma from_string_text t : typename_as_str (typename_from_string t) = t.
Proof.
  unfold typename_from_string, builtin_from_str.
  repeat match goal with
         | |- context [text_eqb t ?x] =>
             destruct (text_eqb_reflect t x) as [->|_]; [reflexivity|]
         end.
  reflexivity.
Qed.

Lemma from_string_round t : typename_from_string (typename_as_str (typename_from_string t))
  = typename_from_string t.
Proof. rewrite from_string_text. reflexivity. Qed.

Lemma from_string_inj s t : typename_from_string s = typename_from_string t <-> s = t.
Proof.
  split; [|intros ->; reflexivity]. intros H.
  rewrite <- (from_string_text s), <- (from_string_text t), H. reflexivity.
Qed.

Lemma from_string_not t b : typename_from_string t = Builtin b -> b <> Usize /\ b <> Isize.
Proof.
  unfold typename_from_string, builtin_from_str.
  repeat match goal with
         | |- context [text_eqb t ?x] =>
             destruct (text_eqb t x); [intros K; injection K as <-; split; discriminate|]
         end.
  discriminate.
Qed.

(** ** C48 *)

Lemma bool_kind (v : spanned literal Sp) c : kind_of (s_value v) <> KBool ->
  bool_raw_decode v c
  = (Context (c_errors c ++ [DScalarKind (s_span v) KBool (kind_of (s_value v))]) (c_ext c), DOk false).
Proof.
  intros N. unfold bool_raw_decode. destruct v as [sp []]; cbn [s_value] in *; try reflexivity; exfalso; apply N; reflexivity.
Qed.

Lemma string_kind (v : spanned literal Sp) c : kind_of (s_value v) <> KString ->
  string_raw_decode v c
  = (Context (c_errors c ++ [DScalarKind (s_span v) KString (kind_of (s_value v))]) (c_ext c), DOk []).
Proof.
  intros N. unfold string_raw_decode. destruct v as [sp []]; cbn [s_value] in *; try reflexivity; exfalso; apply N; reflexivity.
Qed.

Lemma enum_kind {A} (l : list (text * A)) (v : spanned literal Sp) c :
  kind_of (s_value v) <> KString ->
  scalar_enum_raw l v c = (c, DErr (DScalarKind (s_span v) KString (kind_of (s_value v)))).
Proof.
  intros N. unfold scalar_enum_raw. destruct v as [sp []]; cbn [s_value] in *; try reflexivity; exfalso; apply N; reflexivity.
Qed.

Lemma int_kind t (v : spanned literal Sp) c : kind_of (s_value v) <> KInt ->
  int_raw_decode t v c
  = (Context (c_errors c ++ [DScalarKind (s_span v) KString (kind_of (s_value v))]) (c_ext c), DOk 0%Z).
Proof.
  intros N. unfold int_raw_decode. destruct v as [sp []]; cbn [s_value] in *; try reflexivity; exfalso; apply N; reflexivity.
Qed.

Lemma float_kind {F} (from_str : text -> option F) zero (v : spanned literal Sp) c :
  kind_of (s_value v) <> KDecimal ->
  float_raw_decode from_str zero v c
  = (Context (c_errors c ++ [DScalarKind (s_span v) KString (kind_of (s_value v))]) (c_ext c), DOk zero).
Proof.
  intros N. unfold float_raw_decode. destruct v as [sp []]; cbn [s_value] in *; try reflexivity; exfalso; apply N; reflexivity.
Qed.

End Scalars.

Lemma scalars_total {Sp} (v : value Sp) c :
  (forall t, (exists x, decodes (sc_decode (string_impl t) v) c x) \/ fails (sc_decode (string_impl t) v) c)
  /\ ((exists x, decodes (sc_decode bool_impl v) c x) \/ fails (sc_decode bool_impl v) c)
  /\ (forall F ft (from_str : text -> option F) zero,
       (exists x, decodes (sc_decode (float_impl ft from_str zero) v) c x)
       \/ fails (sc_decode (float_impl ft from_str zero) v) c)
  /\ (forall t, (exists z, decodes (sc_decode (int_impl t) v) c z) \/ fails (sc_decode (int_impl t) v) c).
Proof.
  split; [|split; [|split]]; intros; [apply string_total|apply bool_total|apply float_total|apply int_total].
Qed.

Lemma value_wrapped_refuted : exists v : value unit,
  snd (sc_decode (value_impl span_self) v context_new) = DOk v
  /\ snd (sc_decode (option_impl (value_impl (Q := unit) span_self)) v context_new) = DPanic
  /\ snd (sc_decode (wrapped_impl (fun x => x) (value_impl (Q := unit) span_self)) v context_new) = DPanic
  /\ snd (sc_decode (spanned_impl (Q := unit) span_self (value_impl (Q := unit) span_self)) v context_new) = DPanic.
Proof. exists (Value None (Spanned tt (LBool true))). repeat split. Qed.

Lemma usize_round_refuted : exists b, typename_from_string (typename_as_str (Builtin b)) <> Builtin b.
Proof. exists Usize. vm_compute. discriminate. Qed.

Lemma usize_equal_refuted : exists a b : typename, a <> b /\ typename_as_str a = typename_as_str b.
Proof. exists (Builtin Usize), (Custom (str "usize")). split; [discriminate|reflexivity]. Qed.

Lemma builtin_round_name b : b <> Usize -> b <> Isize ->
  typename_from_string (typename_as_str (Builtin b)) = Builtin b.
Proof. destruct b; try reflexivity; contradiction. Qed.

Lemma int_kind_refuted : exists t (v : spanned literal unit),
  kind_of (s_value v) = KString /\
  snd (int_raw_decode t v context_new) = DOk 0%Z
  /\ c_errors (fst (int_raw_decode t v context_new)) = [DScalarKind tt KString KString].
Proof. exists TU8, (Spanned tt (LString (str "x"))). repeat split. Qed.

Lemma cbor_refuted : exists ty, typename_from_cbor (typename_to_cbor ty) <> ty.
Proof. exists (Builtin Usize). vm_compute. discriminate. Qed.
