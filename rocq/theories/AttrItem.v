(** Whole items: AttrSpec.v again. *)

From Coq Require Import NArith List Bool String Lia Arith Permutation.
From Verif Require Import Chars Ast Errors Decode Scalar DeriveDef Derive LexIdent ScalarProps FieldSpec
  StructSpec FieldProps StructProps AcceptSpec AcceptProps AttrParse AttrSpec AttrProps.
Import ListNotations.
Local Open Scope string_scope.
Local Open Scope list_scope.

(** ** Reading *)

Section Items.
Context {Sp L : Type}.
Variable parse_expr : list token -> option (dval L * list token).
Variable parse_type : list token -> option (unit * list token).
Hypothesis expr_stops : stops parse_expr.
Hypothesis type_stops : stops parse_type.
Notation read_field := (read_field (Sp := Sp) parse_expr parse_type).
Notation read_fields := (read_fields (Sp := Sp) parse_expr parse_type).
Notation read_variant := (read_variant (Sp := Sp) parse_expr parse_type).
Notation read_item := (read_item (Sp := Sp) parse_expr parse_type).
Notation written := (written parse_expr parse_type).

Lemma read_field_iff f g : read_field f = (g, []) <-> field_written parse_expr parse_type f g.
Proof.
  unfold AttrParse.read_field, field_written.
  rewrite <- (list_iff parse_expr parse_type (tf_default f) expr_stops type_stops).
  destruct (parse_attr_list parse_expr parse_type (tf_default f) (tf_attrs f)) as [l em].
  destruct g as [nm ty im at_]. cbn [sf_name sf_type sf_impl sf_attrs]. split.
  - intros H. injection H as <- <- <- <- ->. auto.
  - intros (-> & -> & -> & H). now injection H as -> ->.
Qed.

Lemma read_list_iff {A B} (p : A -> B * list text) l : forall m,
  read_list p l = (m, []) <-> Forall2 (fun x y => p x = (y, [])) l m.
Proof.
  unfold read_list. induction l as [|x l IH]; intros m; cbn [map flat_map].
  - split; [intros H; injection H as <-; constructor|]. intros H. now inversion H.
  - destruct (p x) as [y em] eqn:E. cbn [fst snd]. split.
    + intros H. injection H as <- H. apply app_eq_nil in H. destruct H as [-> H].
      constructor; [exact E|]. apply IH. now rewrite H.
    + intros H. inversion H as [|x' y' l' m' H1 H2 E1 E2]; subst. rewrite E in H1.
      injection H1 as -> ->. apply IH in H2. injection H2 as -> ->. reflexivity.
Qed.

Lemma Forall2_iff {A B} (P Q : A -> B -> Prop) l m : (forall x y, P x y <-> Q x y) ->
  Forall2 P l m <-> Forall2 Q l m.
Proof. intros H. split; induction 1; constructor; auto; now apply H. Qed.

Lemma read_fields_iff fs gs : read_fields fs = (gs, []) <-> fields_written parse_expr parse_type fs gs.
Proof.
  assert (K : forall l m, read_list read_field l = (m, [])
    <-> Forall2 (field_written parse_expr parse_type) l m).
  { intros l m. rewrite read_list_iff. apply Forall2_iff, read_field_iff. }
  destruct fs as [l|l|]; cbn [AttrParse.read_fields].
  - specialize (K l). destruct (read_list read_field l) as [m em]. split.
    + intros H. injection H as <- ->. constructor. now apply K.
    + intros H. inversion H as [l' m' F E1 E2| |]; subst. apply K in F. now injection F as -> ->.
  - specialize (K l). destruct (read_list read_field l) as [m em]. split.
    + intros H. injection H as <- ->. constructor. now apply K.
    + intros H. inversion H as [|l' m' F E1 E2|]; subst. apply K in F. now injection F as -> ->.
  - split; [intros H; injection H as <-; constructor|]. intros H. now inversion H.
Qed.

Lemma skip_iff (l : list (attr L)) : variant_skip l = true <-> In ASkip l.
Proof.
  unfold variant_skip. rewrite existsb_exists. split.
  - intros (a & I & E). now destruct a.
  - intros I. exists ASkip. auto.
Qed.

Lemma read_variant_iff v w : read_variant v = (w, []) <-> variant_written parse_expr parse_type v w.
Proof.
  unfold AttrParse.read_variant, variant_written.
  rewrite <- (list_iff parse_expr parse_type VNone expr_stops type_stops).
  destruct (parse_attr_list parse_expr parse_type VNone (tv_attrs v)) as [l em].
  pose proof (skip_iff l) as S. pose proof (read_fields_iff (tv_fields v)) as F.
  destruct w as [id at_ fs]. cbn [sv_ident sv_attrs sv_fields].
  destruct (variant_skip l).
  - split.
    + intros H. injection H as <- <- <- ->. split; [reflexivity|]. split; [reflexivity|].
      left. split; [now apply S|reflexivity].
    + intros (-> & H & X). injection H as -> ->. destruct X as [[_ ->]|[X _]]; [reflexivity|].
      exfalso. apply X. now apply S.
  - assert (NS : ~ In ASkip l) by (rewrite <- S; discriminate).
    destruct (read_fields (tv_fields v)) as [gs em']. split.
    + intros H. injection H as <- <- <- H. apply app_eq_nil in H. destruct H as [-> ->].
      split; [reflexivity|]. split; [reflexivity|]. right. split; [exact NS|]. now apply F.
    + intros (-> & H & X). injection H as -> ->. destruct X as [[X _]|[_ X]]; [contradiction|].
      apply F in X. now injection X as -> ->.
Qed.

Lemma read_item_iff i j : read_item i = (j, []) <-> item_written parse_expr parse_type i j.
Proof.
  destruct i as [id attrs fs|id attrs vs]; cbn [AttrParse.read_item];
    pose proof (list_iff parse_expr parse_type VNone expr_stops type_stops attrs) as W;
    destruct (parse_attr_list parse_expr parse_type VNone attrs) as [l em].
  - pose proof (read_fields_iff fs) as F. destruct (read_fields fs) as [gs em']. split.
    + intros H. injection H as <- H. apply app_eq_nil in H. destruct H as [-> ->].
      constructor; [now apply W|now apply F].
    + intros H. inversion H as [id' attrs' l' fs' gs' H1 H2 E1 E2|]; subst.
      apply W in H1. injection H1 as -> ->. apply F in H2. now injection H2 as -> ->.
  - assert (F : forall ws, read_list read_variant vs = (ws, [])
      <-> Forall2 (variant_written parse_expr parse_type) vs ws).
    { intros ws. rewrite read_list_iff. apply Forall2_iff, read_variant_iff. }
    destruct (read_list read_variant vs) as [ws em']. split.
    + intros H. injection H as <- H. apply app_eq_nil in H. destruct H as [-> ->].
      constructor; [now apply W|now apply F].
    + intros H. inversion H as [|id' attrs' l' vs' ws' H1 H2 E1 E2]; subst.
      apply W in H1. injection H1 as -> ->. apply F in H2. now injection H2 as -> ->.
Qed.

Theorem tokens_iff kebab i d : derive_tokens parse_expr parse_type kebab i = Some d
  <-> exists j, item_written (Sp := Sp) parse_expr parse_type i j /\ decode_derive kebab j = Some d.
Proof.
  unfold derive_tokens. pose proof (read_item_iff i) as R.
  destruct (read_item i) as [j em]. destruct em as [|m em].
  - split.
    + intros H. exists j. split; [now apply R|exact H].
    + intros (j' & W & H). apply R in W. now injection W as ->.
  - split; [discriminate|]. intros (j' & W & H). apply R in W. discriminate.
Qed.

(** What is written is one thing. *)
Lemma written_one bare attrs l m : written bare attrs l -> written bare attrs m -> l = m.
Proof.
  rewrite <- !(list_iff parse_expr parse_type bare expr_stops type_stops). congruence.
Qed.

(** ** Splitting *)

Lemma listed_app {A} (P : list token -> A -> Prop) ts l ts' l' : listed P ts l -> listed P ts' l' ->
  ts <> [] -> (forall t, ts <> t ++ [TkPunct 44]) -> listed P (ts ++ TkPunct 44 :: ts') (l ++ l').
Proof.
  intros H H' N C. induction H as [|ts a K|ts a ts1 l K K1 IH]; [contradiction| |].
  - now constructor.
  - rewrite <- app_assoc. cbn [app]. constructor; [exact K|]. apply IH.
    + intros ->. now apply (C ts).
    + intros t ->. apply (C (ts ++ TkPunct 44 :: t)). rewrite <- app_assoc. reflexivity.
Qed.

Lemma split_written bare a b c d ts ts' attrs l :
  ours a -> ours b -> ours c ->
  at_tokens a = [TkGroup d ts] -> at_tokens b = [TkGroup d ts'] ->
  at_tokens c = [TkGroup d (ts ++ TkPunct 44 :: ts')] ->
  ts <> [] -> (forall t, ts <> t ++ [TkPunct 44]) ->
  written bare (a :: b :: attrs) l -> written bare (c :: attrs) l.
Proof.
  intros Oa Ob Oc Ta Tb Tc N C H.
  inversion H as [| |a' l' d1 t1 k1 m1 O1 T1 R1 W1 E1 E2]; subst; [contradiction|].
  inversion W1 as [| |a' l' d2 t2 k2 m2 O2 T2 R2 W2 E3 E4]; subst; [contradiction|].
  rewrite Ta in T1. injection T1 as <- <-. rewrite Tb in T2. injection T2 as <- <-.
  rewrite app_assoc. eapply written_ours; [exact Oc|exact Tc| |exact W2].
  now apply listed_app.
Qed.

Lemma other_written bare a attrs l : ~ ours a -> written bare (a :: attrs) l <-> written bare attrs l.
Proof.
  intros N. split; [|now constructor]. intros H.
  inversion H as [|a' l' m' N' W E1 E2|a' l' d ts k m' O' T R W E1 E2]; subst; [exact W|contradiction].
Qed.

End Items.

(** ** Order *)

Section Order.
Context {Sp L : Type} (kebab : text -> text).

Lemma picks_permutation {A B} (f : A -> option B) l m : Permutation l m ->
  Permutation (picks f l) (picks f m).
Proof. unfold picks. now apply Permutation_flat_map. Qed.

Lemma short_permutation {A} (l m : list A) : at_most_one l -> Permutation l m -> l = m.
Proof.
  intros S P. unfold at_most_one in S. destruct l as [|a [|b l]]; cbn in S; try lia.
  - now apply Permutation_nil in P.
  - now apply Permutation_length_1_inv in P.
Qed.

Lemma allowed_permutation (l m : list (attr L)) : Permutation l m -> attrs_allowed l ->
  attrs_allowed m /\ the_attrs l = the_attrs m.
Proof.
  intros P (A1 & A2 & A3 & A4 & A5 & A6).
  pose proof (short_permutation _ _ A1 (picks_permutation mode_attr _ _ P)) as E1.
  pose proof (short_permutation _ _ A2 (picks_permutation decode_attr _ _ P)) as E2.
  pose proof (short_permutation _ _ A3 (picks_permutation unwrap_attr _ _ P)) as E3.
  pose proof (short_permutation _ _ A4 (picks_permutation default_attr _ _ P)) as E4.
  unfold attrs_allowed, the_attrs. rewrite <- E1, <- E2, <- E3, <- E4.
  split; [|reflexivity]. repeat (split; [assumption|]). split; intros I.
  - apply A5. now apply (Permutation_in _ (Permutation_sym P)).
  - apply A6. now apply (Permutation_in _ (Permutation_sym P)).
Qed.

Lemma update_permutation (l m : list (attr L)) a : Permutation l m ->
  attrs_update l = (a, []) -> attrs_update m = (a, []).
Proof.
  intros P H. apply attrs_update_iff in H. destruct H as [H ->].
  destruct (allowed_permutation l m P H) as [H' ->]. now apply attrs_update_iff.
Qed.

Lemma add_fields_reordered fs gs : Forall2 (field_reordered (Sp := Sp) (L := L)) fs gs ->
  forall b idx b', add_fields kebab b idx fs = inl b' -> sb_emitted b' = [] ->
  add_fields kebab b idx gs = inl b'.
Proof.
  induction 1 as [|f g fs gs (N & T & I & P) H IH]; intros b idx b'; cbn [add_fields]; [auto|].
  destruct (attrs_update (sf_attrs f)) as [a em] eqn:U.
  destruct (add_field kebab (emit_all b em) _ _ _ a) as [b1|] eqn:A; [|discriminate].
  intros K E. pose proof (add_fields_emitted kebab _ _ _ _ K E) as E1.
  pose proof (add_field_emitted kebab _ _ _ _ _ _ A E1) as E0.
  rewrite emit_all_emitted in E0. apply app_eq_nil in E0. destruct E0 as [_ ->].
  rewrite (update_permutation _ _ _ P U), <- N, <- T, <- I, A. now apply IH.
Qed.

Lemma struct_new_reordered ident fs gs s : Forall2 (field_reordered (Sp := Sp) (L := L)) fs gs ->
  struct_new kebab ident fs = inl (s, []) -> struct_new kebab ident gs = inl (s, []).
Proof.
  intros H. unfold struct_new. destruct (add_fields kebab (builder_new ident) 0 fs) as [b|] eqn:A;
    [|discriminate].
  intros K. injection K as <- E. rewrite (add_fields_reordered _ _ H _ _ _ A E). now rewrite E.
Qed.

Lemma container_permutation (l m : list (attr L)) : Permutation l m ->
  container_emitted l = [] -> container_emitted m = [].
Proof.
  intros P. rewrite !container_iff. apply (Permutation_Forall P).
Qed.

Lemma variant_permutation (l m : list (attr L)) : Permutation l m ->
  (variant_emitted l = [] -> variant_emitted m = []) /\ variant_skip l = variant_skip m.
Proof.
  intros P. split.
  - rewrite !variant_emitted_iff. apply (Permutation_Forall P).
  - apply eq_true_iff_eq. rewrite !skip_iff. split; apply Permutation_in; [exact P|].
    now apply Permutation_sym.
Qed.

Lemma variant_new_reordered v w x : variant_reordered (Sp := Sp) (L := L) v w ->
  variant_new kebab v = inl (x, []) -> variant_new kebab w = inl (x, []).
Proof.
  intros (I & P & F). unfold variant_new. rewrite I. destruct F as [fs gs F|fs gs F|]; [| |auto].
  - destruct (struct_new kebab (sv_ident w) fs) as [[s em]|] eqn:S; [|discriminate].
    intros H. injection H as <- ->. now rewrite (struct_new_reordered _ _ _ _ F S).
  - destruct (struct_new kebab (sv_ident w) fs) as [[s em]|] eqn:S; [|discriminate].
    intros H. injection H as <- ->. now rewrite (struct_new_reordered _ _ _ _ F S).
Qed.

Lemma enum_new_reordered vs ws : Forall2 (variant_reordered (Sp := Sp) (L := L)) vs ws ->
  forall l, enum_new kebab vs = inl (l, []) -> enum_new kebab ws = inl (l, []).
Proof.
  induction 1 as [|v w vs ws V H IH]; intros l; cbn [enum_new]; [auto|].
  pose proof (variant_permutation _ _ (proj1 (proj2 V))) as [VE VS]. rewrite <- VS.
  destruct (variant_skip (sv_attrs v)).
  - destruct (enum_new kebab vs) as [[l' em]|]; [|discriminate].
    intros K. injection K as -> K. apply app_eq_nil in K. destruct K as [K ->].
    rewrite (IH l eq_refl), (VE K). reflexivity.
  - destruct (variant_new kebab v) as [[x em]|] eqn:X; [|discriminate].
    destruct (enum_new kebab vs) as [[l' em']|]; [|discriminate].
    intros K. injection K as <- K. apply app_eq_nil in K. destruct K as [K1 K].
    apply app_eq_nil in K. destruct K as [-> ->].
    rewrite (variant_new_reordered _ _ _ V X), (IH l' eq_refl), (VE K1). reflexivity.
Qed.

Lemma definition_reordered i j d : item_reordered (Sp := Sp) (L := L) i j ->
  definition_parse kebab i = inl (d, []) -> definition_parse kebab j = inl (d, []).
Proof.
  intros [ident l m fs gs P F|ident l m vs ws P F]; cbn [definition_parse].
  - destruct F as [fs gs F|fs gs F|].
    + destruct (struct_new kebab ident fs) as [[s em]|] eqn:S; [|discriminate].
      intros H. injection H as <- H. apply app_eq_nil in H. destruct H as [C ->].
      rewrite (struct_new_reordered _ _ _ _ F S), (container_permutation _ _ P C). reflexivity.
    + destruct (struct_new kebab ident fs) as [[s em]|] eqn:S; [|discriminate].
      intros H. injection H as <- H. apply app_eq_nil in H. destruct H as [C ->].
      rewrite (struct_new_reordered _ _ _ _ F S), (container_permutation _ _ P C). reflexivity.
    + destruct (struct_new kebab ident []) as [[s em]|] eqn:S; [|discriminate].
      intros H. injection H as <- H. apply app_eq_nil in H. destruct H as [C ->].
      rewrite (container_permutation _ _ P C). reflexivity.
  - destruct (enum_new kebab vs) as [[x em]|] eqn:S; [|discriminate].
    intros H. injection H as <- H. apply app_eq_nil in H. destruct H as [C ->].
    rewrite (enum_new_reordered _ _ F _ S), (container_permutation _ _ P C). reflexivity.
Qed.

Lemma Forall2_sym {A} (R : A -> A -> Prop) l m : (forall x y, R x y -> R y x) ->
  Forall2 R l m -> Forall2 R m l.
Proof. intros S. induction 1; constructor; auto. Qed.

Lemma field_reordered_sym (f g : src_field Sp L) : field_reordered f g -> field_reordered g f.
Proof. intros (A & B & C & P). unfold field_reordered. auto using Permutation_sym. Qed.

Lemma fields_reordered_sym (f g : src_fields Sp L) : fields_reordered f g -> fields_reordered g f.
Proof. intros []; constructor; auto using Forall2_sym, field_reordered_sym. Qed.

Lemma item_reordered_sym (i j : src_item Sp L) : item_reordered i j -> item_reordered j i.
Proof.
  intros []; constructor; auto using Permutation_sym, fields_reordered_sym.
  apply Forall2_sym; [|assumption]. intros v w (A & B & C). unfold variant_reordered.
  auto using Permutation_sym, fields_reordered_sym.
Qed.

Theorem derive_reordered i j : item_reordered (Sp := Sp) (L := L) i j ->
  decode_derive kebab i = decode_derive kebab j.
Proof.
  intros R. pose proof (item_reordered_sym _ _ R) as R'. unfold decode_derive.
  destruct (definition_parse kebab i) as [[d [|]]|] eqn:E.
  - now rewrite (definition_reordered _ _ _ R E).
  - destruct (definition_parse kebab j) as [[d' [|]]|] eqn:E'; [|reflexivity..].
    rewrite (definition_reordered _ _ _ R' E') in E. discriminate.
  - destruct (definition_parse kebab j) as [[d' [|]]|] eqn:E'; [|reflexivity..].
    rewrite (definition_reordered _ _ _ R' E') in E. discriminate.
Qed.

End Order.

Theorem tokens_accepted {Sp L} (parse_expr : list token -> option (dval L * list token)) parse_type kebab
    (i : tok_item Sp L) : stops parse_expr -> stops parse_type ->
  (forall j, item_written parse_expr parse_type i j -> item_proper j) ->
  derive_tokens parse_expr parse_type kebab i <> None
  <-> exists j, item_written parse_expr parse_type i j /\ item_allowed j.
Proof.
  intros E T P. split.
  - intros N. destruct (derive_tokens parse_expr parse_type kebab i) as [d|] eqn:D; [|contradiction].
    apply (tokens_iff parse_expr parse_type E T) in D. destruct D as (j & W & D).
    exists j. split; [exact W|]. apply (item_accepted kebab j (P j W)). now exists d.
  - intros (j & W & A). apply (item_accepted kebab j (P j W)) in A. destruct A as [d D].
    assert (K : derive_tokens parse_expr parse_type kebab i = Some d)
      by (apply (tokens_iff parse_expr parse_type E T); now exists j).
    rewrite K. discriminate.
Qed.
