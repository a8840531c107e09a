(** Integer decoding is exact. *)

From Coq Require Import NArith ZArith List Bool Lia String.
From Verif Require Import Chars Ast Errors Chumsky Kdl KdlChars Decode Scalar DecodeSpec.
Import ListNotations.
Local Open Scope N_scope.

Fixpoint fwd (r a : N) (ds : text) : option N :=
  match ds with
  | [] => Some a
  | d :: ds' => match to_digit r d with Some x => fwd r (a * r + x) ds' | None => None end
  end.

Lemma fwd_app r ds : forall a es,
  fwd r a (ds ++ es) = match fwd r a ds with Some b => fwd r b es | None => None end.
Proof.
  induction ds as [|d ds IH]; intros a es; cbn [fwd app]; auto.
  destruct (to_digit r d); auto.
Qed.

Lemma fwd_value r ds v : r <= 16 -> fwd r 0 ds = Some v <-> digits_value r ds v.
Proof.
  intros Hr. split.
  - revert v. induction ds as [|d ds IH] using rev_ind; intros v H.
    + injection H as <-. constructor.
    + rewrite fwd_app in H. destruct (fwd r 0 ds) as [b|]; [|discriminate].
      cbn [fwd] in H. destruct (to_digit r d) as [x|] eqn:D; [|discriminate].
      injection H as <-. constructor; auto. apply to_digit_spec; auto.
  - intros H. induction H as [|ds v d x H IH D].
    + reflexivity.
    + rewrite fwd_app, IH. cbn [fwd]. apply to_digit_spec in D; auto. rewrite D. reflexivity.
Qed.

Lemma fwd_le r ds : 0 < r -> forall a v, fwd r a ds = Some v -> a <= v.
Proof.
  intros Hr. induction ds as [|d ds IH]; intros a v H; cbn [fwd] in H.
  - injection H as <-. lia.
  - destruct (to_digit r d) as [x|]; [|discriminate].
    apply IH in H. nia.
Qed.

Lemma fits_bounds t z : fits t z <-> (int_min t <= z <= int_max t)%Z.
Proof. destruct t; split; intros H; exact H. Qed.

Lemma checked_some t z z' : checked t z = Some z' <-> fits t z /\ z = z'.
Proof.
  unfold checked. rewrite fits_bounds.
  destruct ((int_min t <=? z) && (z <=? int_max t))%Z eqn:E;
    rewrite ?andb_true_iff, ?andb_false_iff, ?Z.leb_le, ?Z.leb_gt in E.
  - split; [intros K; injection K; auto|intros [_ ->]; auto].
  - split; [discriminate|lia].
Qed.

Lemma checked_none t z : checked t z = None <-> ~ fits t z.
Proof.
  destruct (checked t z) as [z'|] eqn:E.
  - apply checked_some in E. split; [discriminate|tauto].
  - split; auto. intros _ F.
    assert (checked t z = Some z) by (apply checked_some; auto). congruence.
Qed.

Definition sgn (positive : bool) (v : N) : Z :=
  if positive then Z.of_N v else (- Z.of_N v)%Z.

Lemma zero_fits t : fits t 0%Z.
Proof. destruct t; cbv; split; discriminate. Qed.

Lemma fits_smaller t p a v : a <= v -> fits t (sgn p v) -> fits t (sgn p a).
Proof.
  pose proof (zero_fits t) as Z0. unfold fits, sgn in *.
  destruct p; lia.
Qed.

Lemma loop_ok t p r ds : 0 < r -> forall a v, fits t (sgn p a) -> fwd r a ds = Some v ->
  (fits t (sgn p v) -> radix_loop t p r ds (sgn p a) = inl (sgn p v))
  /\ (~ fits t (sgn p v) ->
      radix_loop t p r ds (sgn p a) = inr (if p then IPosOverflow else INegOverflow)).
Proof.
  intros Hr. induction ds as [|d ds IH]; intros a v Fa H; cbn [fwd] in H; cbn [radix_loop].
  - injection H as <-. split; [reflexivity|tauto].
  - destruct (to_digit r d) as [x|] eqn:D; [|discriminate].
    pose proof (fwd_le _ _ Hr _ _ H) as L.
    assert (M : (sgn p a * Z.of_N r)%Z = sgn p (a * r)) by (unfold sgn; destruct p; lia).
    assert (A : (if p then sgn p (a * r) + Z.of_N x else sgn p (a * r) - Z.of_N x)%Z
                = sgn p (a * r + x)) by (unfold sgn; destruct p; lia).
    rewrite M.
    destruct (checked t (sgn p (a * r))) as [m|] eqn:Em.
    + apply checked_some in Em as [Fm <-]. rewrite A.
      destruct (checked t (sgn p (a * r + x))) as [m|] eqn:Ea.
      * apply checked_some in Ea as [Fx <-]. apply IH; auto.
      * apply checked_none in Ea. split; [|reflexivity].
        intros Fv. exfalso. apply Ea. apply (fits_smaller t p _ v); auto.
    + apply checked_none in Em. split; [|reflexivity].
      intros Fv. exfalso. apply Em. apply (fits_smaller t p _ v); auto. lia.
Qed.

Lemma loop_inv t p r ds : 0 < r -> forall a z, fits t (sgn p a) ->
  radix_loop t p r ds (sgn p a) = inl z ->
  exists v, fwd r a ds = Some v /\ z = sgn p v /\ fits t z.
Proof.
  intros Hr. induction ds as [|d ds IH]; intros a z Fa H; cbn [radix_loop] in H; cbn [fwd].
  - injection H as <-. eauto.
  - destruct (to_digit r d) as [x|] eqn:D; [|discriminate].
    assert (M : (sgn p a * Z.of_N r)%Z = sgn p (a * r)) by (unfold sgn; destruct p; lia).
    assert (A : (if p then sgn p (a * r) + Z.of_N x else sgn p (a * r) - Z.of_N x)%Z
                = sgn p (a * r + x)) by (unfold sgn; destruct p; lia).
    rewrite M in H.
    destruct (checked t (sgn p (a * r))) as [m|] eqn:Em; [|discriminate].
    apply checked_some in Em as [Fm <-]. rewrite A in H.
    destruct (checked t (sgn p (a * r + x))) as [m|] eqn:Ea; [|discriminate].
    apply checked_some in Ea as [Fx <-]. apply IH; auto.
Qed.

Lemma minus_signed t : takes_minus t <-> int_signed t = true.
Proof. destruct t; cbv; split; try reflexivity; try discriminate. Qed.

Lemma base_ok r : 0 < radix_base r /\ radix_base r <= 16.
Proof. destruct r; cbn; lia. Qed.

Lemma try_from_radix t r s : int_try_from t r s = from_str_radix t (radix_base r) s.
Proof. destruct r; reflexivity. Qed.

Lemma digit_not_sign b d x : b <= 16 -> digit_of b d x -> d <> 0x2B /\ d <> 0x2D.
Proof.
  intros Hb H. apply to_digit_spec in H; auto.
  split; intros ->; discriminate.
Qed.

Lemma value_head b d ds v : b <= 16 -> digits_value b (d :: ds) v -> d <> 0x2B /\ d <> 0x2D.
Proof.
  intros Hb H. apply fwd_value in H; auto. cbn [fwd] in H.
  destruct (to_digit b d) as [x|] eqn:D; [|discriminate].
  apply to_digit_spec in D; auto. eapply digit_not_sign; eauto.
Qed.

(** A number of the right syntax gives its value or an overflow, except for a
    minus sign on an unsigned type. *)
Lemma from_str_value t b s z : 0 < b -> b <= 16 -> integer_value b s z ->
  takes_minus t \/ hd_error s <> Some 0x2D ->
  (fits t z -> from_str_radix t b s = inl z)
  /\ (~ fits t z -> exists e, (e = IPosOverflow \/ e = INegOverflow)
        /\ from_str_radix t b s = inr e).
Proof.
  intros Hb Hb16 V S.
  assert (P : forall ds v, digits_value b ds v ->
    (fits t (Z.of_N v) -> radix_loop t true b ds 0 = inl (Z.of_N v))
    /\ (~ fits t (Z.of_N v) -> radix_loop t true b ds 0 = inr IPosOverflow)).
  { intros ds v D. apply fwd_value in D; auto.
    apply (loop_ok t true b ds Hb 0 v); auto. apply zero_fits. }
  destruct V as [ds v NE D|ds v NE D|ds v NE D].
  - destruct ds as [|d ds]; [contradiction|].
    destruct (value_head _ _ _ _ Hb16 D) as [D1 D2].
    apply P in D as [D3 D4]. unfold from_str_radix.
    apply N.eqb_neq in D1, D2. rewrite D1, D2. cbn [orb andb].
    split; eauto.
  - destruct ds as [|d ds]; [contradiction|].
    apply P in D as [D3 D4]. cbn [from_str_radix N.eqb Pos.eqb orb andb].
    split; eauto.
  - destruct ds as [|d ds]; [contradiction|].
    destruct S as [S|S]; [|exfalso; apply S; reflexivity].
    apply minus_signed in S. cbn [from_str_radix N.eqb Pos.eqb orb andb]. rewrite S.
    apply fwd_value in D; auto.
    destruct (loop_ok t false b (d :: ds) Hb 0 v) as [D3 D4]; auto; [apply zero_fits|].
    split; intros F; [apply D3; auto|exists INegOverflow; split; auto].
Qed.

(** Whatever number comes out is the value of the text. *)
Lemma from_str_exact t b s z : 0 < b -> b <= 16 -> from_str_radix t b s = inl z ->
  integer_value b s z /\ fits t z /\ (takes_minus t \/ hd_error s <> Some 0x2D).
Proof.
  intros Hb Hb16 H. unfold from_str_radix in H. destruct s as [|c s]; [discriminate|].
  destruct (((c =? 0x2B) || (c =? 0x2D)) && match s with [] => true | _ => false end) eqn:E;
    [discriminate|].
  destruct (N.eqb_spec c 0x2B) as [->|N1].
  - destruct s as [|d s]; [discriminate|].
    apply (loop_inv t true b (d :: s) Hb 0 z) in H; [|apply zero_fits].
    destruct H as (v & H & -> & F). apply fwd_value in H; auto.
    split; [|split; auto].
    + apply IV_plus; auto. discriminate.
    + right. discriminate.
  - destruct (N.eqb_spec c 0x2D) as [->|N2]; cbn [andb] in H.
    + destruct s as [|d s]; [discriminate|].
      destruct (int_signed t) eqn:Si.
      * apply (loop_inv t false b (d :: s) Hb 0 z) in H; [|apply zero_fits].
        destruct H as (v & H & -> & F). apply fwd_value in H; auto.
        split; [|split; auto].
        -- apply IV_minus; auto. discriminate.
        -- left. apply minus_signed; auto.
      * apply (loop_inv t true b (0x2D :: d :: s) Hb 0 z) in H; [|apply zero_fits].
        destruct H as (v & H & -> & F). cbn [fwd] in H. discriminate.
    + apply (loop_inv t true b (c :: s) Hb 0 z) in H; [|apply zero_fits].
      destruct H as (v & H & -> & F). apply fwd_value in H; auto.
      split; [|split; auto].
      * apply IV_plain; auto. discriminate.
      * right. intros K. injection K as K. auto.
Qed.

Lemma number_type_ok {Sp} marker name (ty : option (spanned typename Sp)) c :
  (ty = None \/ exists sp, ty = Some (Spanned sp (Builtin marker))) ->
  number_type_check marker name ty c = c.
Proof.
  intros [->|[sp ->]]; [reflexivity|].
  unfold number_type_check. cbn. destruct marker; reflexivity.
Qed.

Section Int.
Context {Sp : Type}.

Definition typed_for (t : int_type) (ty : option (spanned typename Sp)) : Prop :=
  typed_as (int_rust_name t) ty.

Lemma typed_for_marker t ty : typed_for t ty ->
  ty = None \/ exists sp, ty = Some (Spanned sp (Builtin (int_marker t))).
Proof.
  intros [->|(sp & b & -> & E)]; [left; reflexivity|right; exists sp].
  do 3 f_equal. destruct t, b; try reflexivity; discriminate E.
Qed.

Lemma int_exact t r s z ty sp (c : context Sp) :
  integer_value (radix_base r) s z -> takes_minus t \/ hd_error s <> Some 0x2D -> fits t z ->
  typed_for t ty ->
  sc_decode (int_impl t) (Value ty (Spanned sp (LInt r s))) c = (c, DOk z).
Proof.
  intros V S F T. destruct (base_ok r) as [B1 B2].
  cbn [int_impl scalar_default sc_decode]. unfold default_decode. cbn [v_type_name v_literal].
  rewrite number_type_ok by (apply typed_for_marker; exact T). unfold int_raw_decode. cbn [s_value].
  rewrite try_from_radix. destruct (from_str_value t _ s z B1 B2 V S) as [K _].
  rewrite K; auto.
Qed.

Lemma int_out_of_range t r s z ty sp (c : context Sp) :
  integer_value (radix_base r) s z -> ~ fits t z -> typed_for t ty ->
  exists e, sc_decode (int_impl t) (Value ty (Spanned sp (LInt r s))) c
            = (Context (c_errors c ++ [DConversion sp e]) (c_ext c), DOk 0%Z).
Proof.
  intros V F T. destruct (base_ok r) as [B1 B2].
  cbn [int_impl scalar_default sc_decode]. unfold default_decode. cbn [v_type_name v_literal].
  rewrite number_type_ok by (apply typed_for_marker; exact T). unfold int_raw_decode. cbn [s_value].
  rewrite try_from_radix. destruct (from_str_radix t (radix_base r) s) as [z'|e] eqn:E.
  - exfalso. apply from_str_exact in E as (V' & F' & S); auto.
    destruct (from_str_value t _ s z B1 B2 V S) as [_ K].
    destruct (K F) as (e & _ & K').
    destruct (from_str_value t _ s z' B1 B2 V' S) as [K2 _].
    rewrite K2 in K'; auto. discriminate.
  - eexists. reflexivity.
Qed.

(** Whatever is decoded without an error is the value of an integer literal. *)
Lemma int_only t v (c : context Sp) z : decodes (sc_decode (int_impl t) v) c z ->
  exists r s, s_value (v_literal v) = LInt r s /\ integer_value (radix_base r) s z
    /\ fits t z /\ typed_for t (v_type_name v).
Proof.
  unfold decodes. cbn [int_impl scalar_default sc_decode]. unfold default_decode.
  unfold int_raw_decode.
  assert (L : forall e, c = emit_error e c -> False).
  { intros e K. apply (f_equal (fun c => List.length (c_errors c))) in K. cbn in K.
    rewrite app_length in K. cbn in K. lia. }
  assert (T : number_type_check (int_marker t) (int_name t) (v_type_name v) c = c ->
    typed_for t (v_type_name v)).
  { unfold number_type_check. destruct (v_type_name v) as [[sp typ]|]; [|left; auto].
    cbn [s_value s_span]. destruct typ as [b|n]; cbn [typename_as_builtin].
    - destruct (builtin_eqb b (int_marker t)) eqn:E.
      + intros _. right. exists sp, b. split; auto. destruct b, t; try discriminate; reflexivity.
      + intros K. exfalso. symmetry in K. apply L in K. auto.
    - intros K. exfalso. symmetry in K. apply L in K. auto. }
  assert (T2 : forall e, emit_error e (number_type_check (int_marker t) (int_name t) (v_type_name v) c) = c -> False).
  { intros e K. apply (f_equal (fun c => List.length (c_errors c))) in K. cbn in K.
    rewrite app_length in K. unfold number_type_check in K.
    destruct (v_type_name v); [|cbn in K; lia].
    destruct (match _ with Some b => _ | None => _ end); cbn in K; [lia|].
    rewrite app_length in K. cbn in K. lia. }
  destruct (s_value (v_literal v)) as [|b|r s|x|x] eqn:E; intros H; try (injection H as H _; exfalso; eapply T2; exact H).
  destruct (int_try_from t r s) as [z'|e] eqn:F.
  - injection H as H ->. exists r, s. rewrite try_from_radix in F.
    destruct (base_ok r) as [B1 B2]. apply from_str_exact in F as (V & F & _); auto.
  - injection H as H _. exfalso. eapply T2; exact H.
Qed.

End Int.

Lemma minus_zero : integer_value 10 (str "-0") 0%Z.
Proof.
  apply (IV_minus 10 (str "0") 0); [discriminate|]. apply fwd_value; [lia|reflexivity].
Qed.

Lemma minus_zero_rejected :
  sc_decode (int_impl TU8) (Value None (Spanned tt (LInt Dec (str "-0")))) (context_new)
  = (Context [DConversion tt (SInt IInvalidDigit)] [], DOk 0%Z).
Proof. reflexivity. Qed.

Lemma minus_zero_refuted : exists s z, integer_value 10 s z /\ fits TU8 z
  /\ sc_decode (int_impl TU8) (Value None (Spanned tt (LInt Dec s))) context_new
     = (Context [DConversion tt (SInt IInvalidDigit)] [], DOk 0%Z).
Proof.
  exists (str "-0"), 0%Z. split; [exact minus_zero|]. split; [split; cbv; discriminate|].
  exact minus_zero_rejected.
Qed.

Lemma signed_decodes {Sp} t r s z ty sp (c : context Sp) :
  integer_value (radix_base r) s z -> takes_minus t -> fits t z -> typed_as (int_rust_name t) ty ->
  decodes (sc_decode (int_impl t) (Value ty (Spanned sp (LInt r s)))) c z.
Proof. intros V M F T. apply int_exact; auto. Qed.
