(** The [DecodeScalar] derive, numerals, and the messages that list names. *)

From Coq Require Import NArith List Bool String Lia ZifyBool.
From Verif Require Import Chars Ast Errors Chumsky Kdl KdlChars Decode Scalar DecodeSpec DecodeProps ScalarProps
  DeriveDef Derive DeriveSpec DeriveScalar FieldSpec StructSpec EnumSpec EnumProps ScalarEnumSpec.
Import ListNotations.
Local Open Scope N_scope.

(** ** Numerals *)

Lemma dec_digit x : x < 10 -> digit_of 10 (0x30 + x) x.
Proof.
  intros H. apply to_digit_spec; [lia|].
  assert (C : x = 0 \/ x = 1 \/ x = 2 \/ x = 3 \/ x = 4 \/ x = 5 \/ x = 6 \/ x = 7 \/ x = 8 \/ x = 9) by lia.
  repeat destruct C as [->|C]; try reflexivity. now subst.
Qed.

Lemma digit_dec d x : digit_of 10 d x -> d = 0x30 + x /\ x < 10.
Proof.
  intros [B H]. split; [|exact B].
  assert (C : x = 0 \/ x = 1 \/ x = 2 \/ x = 3 \/ x = 4 \/ x = 5 \/ x = 6 \/ x = 7 \/ x = 8 \/ x = 9) by lia.
  repeat destruct C as [->|C]; try (destruct H as [H|H]; cbv in H; now injection H as <-).
  subst. destruct H as [H|H]; cbv in H; now injection H as <-.
Qed.

Lemma decimal_app f : forall n acc, decimal_digits f n acc = decimal_digits f n [] ++ acc.
Proof.
  induction f as [|f IH]; intros n acc; cbn [decimal_digits]; [reflexivity|].
  destruct (n <? 10); [reflexivity|]. rewrite IH, (IH _ [_]). now rewrite <- app_assoc.
Qed.

Lemma decimal_numeral f : forall n, n < 10 ^ N.of_nat (S f) ->
  DecodeSpec.digits_value 10 (decimal_digits (S f) n []) n
  /\ exists d t, decimal_digits (S f) n [] = d :: t /\ (d = 0x30 -> n = 0 /\ t = []).
Proof.
  induction f as [|f IH]; intros n H.
  - change (10 ^ N.of_nat 1) with 10 in H. cbn [decimal_digits].
    assert (E : (n <? 10) = true) by lia. rewrite E.
    assert (M : n mod 10 = n) by (now apply N.mod_small). rewrite M. split.
    + change [0x30 + n] with ([] ++ [0x30 + n]). replace n with (0 * 10 + n) at 2 by lia.
      constructor; [constructor|]. now apply dec_digit.
    + exists (0x30 + n), []. split; [reflexivity|]. intros X. split; [lia|reflexivity].
  - remember (S f) as g. cbn [decimal_digits]. destruct (n <? 10) eqn:E.
    + assert (M : n mod 10 = n) by (apply N.mod_small; lia). rewrite M. split.
      * change [0x30 + n] with ([] ++ [0x30 + n]). replace n with (0 * 10 + n) at 2 by lia.
        constructor; [constructor|]. apply dec_digit. lia.
      * exists (0x30 + n), []. split; [reflexivity|]. intros X. split; [lia|reflexivity].
    + assert (B : n / 10 < 10 ^ N.of_nat g).
      { apply N.div_lt_upper_bound; [lia|]. rewrite <- N.pow_succ_r'. now rewrite <- Nnat.Nat2N.inj_succ. }
      destruct (IH _ B) as [V (d & t & K & Z)].
      rewrite decimal_app. split.
      * pose proof (N.div_mod n 10 ltac:(discriminate)) as DM.
        pose proof (N.mod_upper_bound n 10 ltac:(discriminate)) as MB.
        rewrite DM at 3. rewrite (N.mul_comm 10). constructor; [exact V|]. now apply dec_digit.
      * exists d, (t ++ [0x30 + n mod 10]). rewrite K. split; [reflexivity|].
        intros X. destruct (Z X) as [Q _]. exfalso. apply N.div_small_iff in Q; lia.
Qed.

Lemma decimal_right n : n < 10 ^ 20 -> numeral (decimal_digits 20 n []) n.
Proof.
  intros H. destruct (decimal_numeral 19 n H) as [V (d & t & K & Z)].
  split; [exact V|]. rewrite K. split; [discriminate|]. cbn [hd_error]. intros X.
  injection X as ->. destruct (Z eq_refl) as [_ ->]. reflexivity.
Qed.

Lemma value_snoc ds d n : DecodeSpec.digits_value 10 (ds ++ [d]) n ->
  exists v x, DecodeSpec.digits_value 10 ds v /\ d = 0x30 + x /\ x < 10 /\ n = v * 10 + x.
Proof.
  intros H. inversion H as [E|ds' v d' x V D E F].
  - now destruct ds.
  - apply app_inj_tail in E. destruct E as [-> ->]. apply digit_dec in D. exists v, x. intuition.
Qed.

Lemma value_nil n : DecodeSpec.digits_value 10 [] n -> n = 0.
Proof. intros H. inversion H as [E|ds v d x V D E F]; [reflexivity|]. now destruct ds. Qed.

Lemma value_positive t : forall n, DecodeSpec.digits_value 10 t n -> t <> [] ->
  hd_error t <> Some 0x30 -> 0 < n.
Proof.
  induction t as [|d t IH] using rev_ind; intros n V N H; [now destruct N|].
  apply value_snoc in V. destruct V as (v & x & V & -> & X & ->).
  destruct t as [|e t].
  - apply value_nil in V. subst. cbn in H. assert (x <> 0) by (intros ->; now apply H). lia.
  - assert (0 < v); [|lia]. apply IH; [exact V|discriminate|exact H].
Qed.

Lemma longer (d e : char) t : (d :: t) ++ [e] <> [d].
Proof. cbn. intros H. injection H as H. now destruct t. Qed.

Lemma numeral_unique t n : numeral t n -> forall t', numeral t' n -> t = t'.
Proof.
  revert n. induction t as [|d t IH] using rev_ind; intros n (V & N & Z) t' (V' & N' & Z'); [now destruct N|].
  destruct t' as [|d' t' _] using rev_ind; [now destruct N'|].
  apply value_snoc in V. destruct V as (v & x & V & -> & X & E).
  apply value_snoc in V'. destruct V' as (v' & x' & V' & -> & X' & E').
  assert (v = v' /\ x = x') as [<- <-] by lia. f_equal.
  destruct t as [|e t], t' as [|e' t']; [reflexivity| | |].
  - apply value_nil in V. subst v. exfalso.
    assert (0 < 0); [|lia]. apply (value_positive (e' :: t')); [exact V'|discriminate|].
    cbn [hd_error]. intros Q. injection Q as ->. exact (longer _ _ _ (Z' eq_refl)).
  - apply value_nil in V'. subst v. exfalso.
    assert (0 < 0); [|lia]. apply (value_positive (e :: t)); [exact V|discriminate|].
    cbn [hd_error]. intros Q. injection Q as ->. exact (longer _ _ _ (Z eq_refl)).
  - apply (IH v).
    + split; [exact V|split; [discriminate|]]. cbn [hd_error]. intros Q. injection Q as ->.
      destruct (longer _ _ _ (Z eq_refl)).
    + split; [exact V'|split; [discriminate|]]. cbn [hd_error]. intros Q. injection Q as ->.
      destruct (longer _ _ _ (Z' eq_refl)).
Qed.

(** ** Messages *)

Lemma join_listed l : listed l (join_comma (map quoted l)).
Proof.
  induction l as [|n l IH]; [constructor|]. cbn [map join_comma].
  destruct l as [|m l]; [constructor|].
  change (map quoted (m :: l)) with (quoted m :: map quoted l) in *. cbv iota in *.
  apply (Li_more n (m :: l)); [discriminate|exact IH].
Qed.

Lemma listed_unique l t : listed l t -> forall t', listed l t' -> t = t'.
Proof.
  induction 1 as [|n|n names t N H IH]; intros t' H'; inversion H'; subst; try reflexivity; try congruence.
  f_equal. f_equal. now apply IH.
Qed.

Lemma expected_right names : N.of_nat (List.length names) < 10 ^ 20 ->
  expectation names (expected_names names).
Proof.
  intros B. unfold expected_names. destruct names as [|a [|b [|e [|f names]]]];
    try (apply Ex_few; [cbn; lia|apply join_listed]).
  apply (Ex_many a b (e :: f :: names)); [cbn; lia|].
  replace (List.length (a :: b :: e :: f :: names) - 2)%nat with (List.length (e :: f :: names))
    by (cbn; lia).
  apply decimal_right. cbn [List.length] in *. lia.
Qed.

Lemma expectation_unique names t t' : expectation names t -> expectation names t' -> t = t'.
Proof.
  intros H H'. inversion H; inversion H'; subst; try (cbn in *; lia).
  - f_equal. eapply listed_unique; eauto.
  - match goal with E : _ :: _ = _ :: _ |- _ => injection E as -> -> -> end.
    do 5 f_equal. f_equal. eapply numeral_unique; eauto.
Qed.

(** ** The derive *)

Section Enum.
Context {Sp L : Type} (kebab : text -> text).

Lemma variants_iff (vs : list (src_variant Sp L)) l :
  scalar_variants kebab vs = inl l <->
  Forall (fun v => sv_fields v = FUnit) vs /\ l = map (fun v => (kebab (sv_ident v), sv_ident v)) vs.
Proof.
  revert l. induction vs as [|v vs IH]; intros l; cbn [scalar_variants map].
  - split; [intros H; now injection H as <-|intros [_ ->]; reflexivity].
  - destruct (sv_fields v) eqn:F.
    + split; [discriminate|]. intros [H _]. inversion H. congruence.
    + split; [discriminate|]. intros [H _]. inversion H. congruence.
    + destruct (scalar_variants kebab vs) as [l'|e].
      * destruct (IH l') as [I _]. destruct (I eq_refl) as [A ->]. split.
        -- intros H. injection H as <-. split; [now constructor|reflexivity].
        -- now intros [_ ->].
      * split; [discriminate|]. intros [H ->]. inversion H; subst.
        destruct (IH (map (fun v => (kebab (sv_ident v), sv_ident v)) vs)) as [_ I].
        discriminate I; auto.
Qed.

Theorem scalar_accepts (i : src_item Sp L) :
  (exists d, scalar_derive kebab i = inl d) <-> plain_enum i.
Proof.
  destruct i as [ident cont fs|ident cont vs]; cbn [scalar_derive plain_enum].
  - split; [intros [d H]; discriminate|intros []].
  - destruct (scalar_variants kebab vs) as [l|e] eqn:E.
    + apply variants_iff in E. split; [intros _; apply E|intros _; eauto].
    + split; [intros [d H]; discriminate|]. intros H.
      assert (X : scalar_variants kebab vs = inl (map (fun v => (kebab (sv_ident v), sv_ident v)) vs))
        by (now apply variants_iff). congruence.
Qed.

(** Why it is refused. *)
Theorem scalar_refuses (i : src_item Sp L) e : scalar_derive kebab i = inr e ->
  (exists ident cont fs, i = SrcStruct ident cont fs /\ e = str "expected `enum`")
  \/ (exists ident cont vs v, i = SrcEnum ident cont vs /\ In v vs /\ sv_fields v <> FUnit
      /\ e = str "only unit variants are allowed for DecodeScalar").
Proof.
  destruct i as [ident cont fs|ident cont vs]; cbn [scalar_derive]; intros H.
  - left. injection H as <-. repeat eexists.
  - right. exists ident, cont, vs. destruct (scalar_variants kebab vs) as [l|e'] eqn:E; [discriminate|].
    injection H as ->. revert E. induction vs as [|v vs IH]; cbn [scalar_variants]; [discriminate|].
    intros E. destruct (sv_fields v) eqn:F.
    + injection E as <-. exists v. repeat split; [now left|congruence].
    + injection E as <-. exists v. repeat split; [now left|congruence].
    + destruct (scalar_variants kebab vs) as [l|e']; [discriminate|]. injection E as ->.
      destruct (IH eq_refl) as (w & _ & I & W & Q). exists w. repeat split; auto. now right.
Qed.

Theorem scalar_attributes (i j : src_item Sp L) : same_but_attributes i j ->
  scalar_derive kebab i = scalar_derive kebab j.
Proof.
  destruct i as [a ca fs|a ca vs], j as [b cb gs|b cb ws]; cbn [same_but_attributes scalar_derive];
    intros H; try contradiction; [reflexivity|]. destruct H as [-> H].
  assert (E : scalar_variants kebab vs = scalar_variants kebab ws); [|now rewrite E].
  revert ws H. induction vs as [|v vs IH]; intros [|w ws] H; try discriminate; [reflexivity|].
  injection H as I F T. cbn [scalar_variants]. rewrite F, I, (IH _ T). reflexivity.
Qed.

Variables (ident : text) (cont : list (attr L)) (vs : list (src_variant Sp L)) (d : scalar_impl Sp (dval L)).
Hypothesis D : scalar_derive kebab (SrcEnum ident cont vs) = inl d.

Definition branches : list (text * dval L) :=
  map (fun v => (kebab (sv_ident v), VVariant ident (sv_ident v) [])) vs.

Lemma derived_impl : d = scalar_enum_impl ident branches.
Proof.
  revert D. cbn [scalar_derive]. destruct (scalar_variants kebab vs) as [l|e] eqn:E; [|discriminate].
  apply variants_iff in E. destruct E as [_ ->]. intros H. injection H as <-.
  unfold branches. now rewrite map_map.
Qed.

Lemma branch_some name : match match_name name branches with
  | Some x => exists v, first_named kebab vs name v /\ x = VVariant ident (sv_ident v) []
  | None => Forall (fun w => kebab (sv_ident w) <> name) vs
  end.
Proof.
  unfold branches. clear D. induction vs as [|v l IH]; cbn [map match_name]; [constructor|].
  destruct (text_eqb_reflect name (kebab (sv_ident v))) as [E|E].
  - exists v. split; [|reflexivity]. exists [], l. repeat split; auto.
  - destruct (match_name name _) as [x|].
    + destruct IH as (w & (b & a & -> & K & F) & ->). exists w. split; [|reflexivity].
      exists (v :: b), a. repeat split; auto.
    + constructor; auto.
Qed.

Lemma first_unique name v w : first_named kebab vs name v -> first_named kebab vs name w -> v = w.
Proof.
  intros (b & a & E & K & F) (b' & a' & E' & K' & F'). rewrite E in E'. clear E. revert b' F' E'.
  induction b as [|x b IH]; intros [|y b'] F' E'; cbn in E'; injection E' as <- E'; auto.
  - inversion F'; congruence.
  - inversion F; congruence.
  - inversion F; inversion F'; subst. eapply IH; eauto.
Qed.

Lemma type_errors (v : value Sp) c :
  no_type_check ident (v_type_name v) c = with_errors c (type_unwanted ident (v_type_name v)).
Proof.
  unfold with_errors. destruct (v_type_name v) as [[s n]|]; cbn; [reflexivity|].
  rewrite app_nil_r. now destruct c.
Qed.

(** A string with the name of a variant gives the first variant of that name; a type
    name is an error. *)
Theorem scalar_named v c s w : s_value (v_literal v) = LString s -> first_named kebab vs s w ->
  sc_decode d v c = (with_errors c (type_unwanted ident (v_type_name v)),
                     DOk (VVariant ident (sv_ident w) [])).
Proof.
  intros S W. rewrite derived_impl. unfold scalar_enum_impl, scalar_default, sc_decode, default_decode.
  rewrite type_errors. unfold scalar_enum_raw. rewrite S. pose proof (branch_some s) as B.
  destruct (match_name s branches) as [x|].
  - destruct B as (w' & W' & ->). now rewrite (first_unique _ _ _ W W').
  - exfalso. destruct W as (b & a & E & K & _). rewrite E, Forall_app in B. destruct B as [_ B].
    inversion B. congruence.
Qed.

(** Any other string is an error that says what was expected. *)
Theorem scalar_unknown v c s : s_value (v_literal v) = LString s ->
  Forall (fun w => kebab (sv_ident w) <> s) vs -> N.of_nat (List.length vs) < 10 ^ 20 ->
  exists msg, expectation (map (fun w => kebab (sv_ident w)) vs) msg
    /\ sc_decode d v c = (with_errors c (type_unwanted ident (v_type_name v)),
                          DErr (DConversion (s_span (v_literal v)) (SMsg msg))).
Proof.
  intros S F B. exists (expected_names (map (fun w => kebab (sv_ident w)) vs)).
  split; [apply expected_right; now rewrite map_length|].
  rewrite derived_impl. unfold scalar_enum_impl, scalar_default, sc_decode, default_decode.
  rewrite type_errors. unfold scalar_enum_raw. rewrite S. pose proof (branch_some s) as Q.
  destruct (match_name s branches) as [x|].
  - exfalso. destruct Q as (w & (b & a & E & K & _) & _). rewrite E, Forall_app in F.
    destruct F as [_ F]. inversion F. congruence.
  - unfold d_err, conversion, branches. now rewrite map_map.
Qed.

(** Anything else is no string. *)
Theorem scalar_other v c : (forall s, s_value (v_literal v) <> LString s) ->
  sc_decode d v c = (with_errors c (type_unwanted ident (v_type_name v)),
                     DErr (DScalarKind (s_span (v_literal v)) KString (kind_of (s_value (v_literal v))))).
Proof.
  intros S. rewrite derived_impl. unfold scalar_enum_impl, scalar_default, sc_decode, default_decode.
  rewrite type_errors. apply enum_kind. intros Q.
  destruct (s_value (v_literal v)) as [ |b|r ds|x|t] eqn:E; cbn in Q; try discriminate. now apply (S t).
Qed.

End Enum.

(** ** Node enums and field names *)

Lemma enum_message Sp L kebab ident cont (vs : list (src_variant Sp L)) d :
  decode_derive kebab (SrcEnum ident cont vs) = Some d -> proper_variants vs ->
  forall n c, Forall (fun v => ~ answers kebab (name_of n) v) vs ->
  forall names, offers kebab vs names -> N.of_nat (List.length names) < 10 ^ 20 ->
  exists msg, expectation names msg
    /\ dr_node d n c = (c, DErr (DConversion (s_span (n_node_name (s_value n))) (SMsg msg))).
Proof.
  intros D P n c A names O B. destruct (derived_enum kebab _ _ _ _ D) as (l & bs & E & Q & ->).
  destruct (enum_branches kebab ident _ _ _ E Q P (name_of n)) as [M K]. unfold enum_node.
  change (s_value (n_node_name (s_value n))) with (name_of n).
  apply offers_filter in O. rewrite <- K in O. subst.
  exists (expected_names (map fst bs)). split; [now apply expected_right|].
  destruct (match_name (name_of n) bs) as [b|]; [|reflexivity].
  destruct M as (w & A' & _). apply variant_for_answers in A'. destruct A' as [I A'].
  rewrite Forall_forall in A. destruct (A _ I A').
Qed.

Lemma named_field_name name : tmp_name (Named name) = name.
Proof. reflexivity. Qed.

Lemma tuple_field_name i : N.of_nat i < 10 ^ 20 ->
  exists t, tmp_name (Indexed i) = str "field" ++ t /\ numeral t (N.of_nat i).
Proof. intros H. eexists. split; [reflexivity|]. now apply decimal_right. Qed.
