(** Derived decoders do not panic if those of the fields do not. *)

From Coq Require Import NArith PeanoNat List Bool String Lia.
From Verif Require Import Chars Ast Errors Chumsky Decode Scalar DecodeSpec
  DeriveDef Derive FieldSpec FieldProps StructSpec ScalarProps CalmSpec.
Import ListNotations.

(** ** The monad *)

Section Monad.
Context {Sp : Type}.

Lemma calm_yields {A} (m : dec Sp A) : calm m <-> yields (fun _ => True) m.
Proof.
  split; intros H c; specialize (H c); destruct (snd (m c)); congruence || tauto.
Qed.

Lemma yields_calm {A} (P : A -> Prop) (m : dec Sp A) : yields P m -> calm m.
Proof. intros H c E. specialize (H c). now rewrite E in H. Qed.

Lemma yields_weaken {A} (P Q : A -> Prop) (m : dec Sp A) :
  (forall a, P a -> Q a) -> yields P m -> yields Q m.
Proof. intros W H c. specialize (H c). destruct (snd (m c)); auto. Qed.

Lemma yields_ok {A} (P : A -> Prop) a : P a -> yields (Sp := Sp) P (d_ok a).
Proof. intros H c. exact H. Qed.

Lemma yields_err {A} (P : A -> Prop) e : yields (Sp := Sp) P (d_err e).
Proof. intros c. exact I. Qed.

Lemma yields_emit (P : unit -> Prop) e : P tt -> yields (Sp := Sp) P (d_emit e).
Proof. intros H c. exact H. Qed.

Lemma yields_bind {A B} (P : A -> Prop) (Q : B -> Prop) (m : dec Sp A) (f : A -> dec Sp B) :
  yields P m -> (forall a, P a -> yields Q (f a)) -> yields Q (d_bind m f).
Proof.
  intros M F c. specialize (M c). unfold d_bind.
  destruct (m c) as [c1 [a|e|]]; cbn [snd] in *; auto. now apply F.
Qed.

Lemma yields_map {A B} (P : A -> Prop) (Q : B -> Prop) (f : A -> B) (m : dec Sp A) :
  yields P m -> (forall a, P a -> Q (f a)) -> yields Q (d_map f m).
Proof.
  intros M H. eapply yields_bind; [exact M|]. intros a Pa. apply yields_ok. auto.
Qed.

Lemma calm_bind {A B} (m : dec Sp A) (f : A -> dec Sp B) :
  calm m -> (forall a, calm (f a)) -> calm (d_bind m f).
Proof.
  rewrite !calm_yields. intros M F. eapply yields_bind; [exact M|]. intros a _.
  now apply calm_yields.
Qed.

Lemma calm_map {A B} (f : A -> B) (m : dec Sp A) : calm m -> calm (d_map f m).
Proof. intros M. apply calm_bind; auto. intros a c. discriminate. Qed.

Lemma yields_collect {A B} (f : A -> dec Sp B) l :
  (forall a, In a l -> calm (f a)) ->
  yields (fun bs => List.length bs = List.length l) (d_collect f l).
Proof.
  induction l as [|a l IH]; intros F; cbn [d_collect]; [now apply yields_ok|].
  eapply yields_bind; [apply calm_yields, F; now left|]. intros b _.
  eapply yields_bind; [apply IH; intros; apply F; now right|]. intros bs E.
  apply yields_ok. cbn. now rewrite E.
Qed.

Lemma calm_convert {T A} (x : spanned T Sp) (r : A + source) : calm (d_convert x r).
Proof. destruct r; intros c; discriminate. Qed.

(** ** The parts of derived decoders *)

Context {L : Type} (kebab : text -> text).
Implicit Types (i : tyimpl Sp L) (s : struct Sp L).

Lemma calm_value m o i v : scalar_calm m i -> calm (decode_value m o i v).
Proof.
  intros H. unfold decode_value, str_type_name.
  destruct m, o; try (apply H; reflexivity).
  - apply calm_bind; [destruct (v_type_name v); intros c; discriminate|]. intros _.
    destruct (s_value (v_literal v)); try (intros c; discriminate). apply calm_map, calm_convert.
  - apply calm_bind; [destruct (v_type_name v); intros c; discriminate|]. intros _.
    destruct (s_value (v_literal v)); try (intros c; discriminate). apply calm_convert.
  - assert (By : calm (fun c => let '(c', b) := bytes v c in
          match ti_from_bytes i b with
          | inl x => (c', DOk (VSome x))
          | inr e => (emit_error (conversion (v_literal v) e) c', DOk VNone)
          end)).
    { intros c. destruct (bytes v c). destruct (ti_from_bytes i l); discriminate. }
    destruct (s_value (v_literal v)); try exact By. intros c. discriminate.
  - intros c. destruct (bytes v c). apply calm_convert.
Qed.

Lemma calm_specials s n : calm (decode_specials s n).
Proof.
  unfold decode_specials. apply calm_bind.
  { eapply yields_calm, yields_collect. intros f _ c. unfold special_span.
    destruct (ti_span _ _ c). discriminate. }
  intros xs. apply calm_bind.
  { eapply yields_calm, yields_collect. intros f _. apply calm_convert. }
  intros ys. apply calm_bind.
  { eapply yields_calm, yields_collect. intros [f o] _. unfold special_type_name.
    destruct (n_type_name (s_value n)).
    - destruct o; [apply calm_map|]; apply calm_convert.
    - destruct o; intros c; discriminate. }
  intros zs. apply calm_bind.
  { destruct (st_type_names s); [destruct (n_type_name (s_value n))|]; intros c; discriminate. }
  intros _ c. discriminate.
Qed.

Definition size {A} (o : option A) : nat := match o with Some _ => 1 | None => 0 end.

Lemma calm_arg_fields n (l : list (arg Sp L)) :
  (forall a, In a l -> scalar_calm (ar_decode a) (f_impl (ar_field a))) -> forall it,
  yields (fun r => List.length (fst r) = List.length l) (arg_fields n l it).
Proof.
  induction l as [|a l IH]; intros H it; cbn [arg_fields]; [now apply yields_ok|].
  eapply yields_bind with (P := fun _ => True).
  - apply calm_yields. destruct it as [|v it].
    + destruct (ar_default a), (ar_kind_option a); intros c; discriminate.
    + apply calm_map, calm_value, H. now left.
  - intros [x it'] _. eapply yields_map; [apply IH; intros b I; apply H; now right|].
    intros [xs it''] E. cbn in *. now rewrite E.
Qed.

Lemma calm_args s n :
  (forall a, In a (st_arguments s) -> scalar_calm (ar_decode a) (f_impl (ar_field a))) ->
  (forall f m, st_var_args s = Some (f, m) -> scalar_calm m (f_impl f)) ->
  yields (fun xs => List.length xs = List.length (st_arguments s) + size (st_var_args s))
    (decode_args s n).
Proof.
  intros H1 H2. unfold decode_args.
  eapply yields_bind; [now apply calm_arg_fields|]. intros [xs it] E. cbn [fst] in E.
  destruct (st_var_args s) as [[f m]|]; cbn [size].
  - eapply yields_map; [apply yields_collect; intros v _; eapply calm_value, H2; reflexivity|].
    intros ys _. rewrite app_length, E. reflexivity.
  - destruct it; [apply yields_ok; lia|apply yields_err].
Qed.

(** The variables of flattened properties are steady. *)
Definition prop_fine (p : prop Sp L) (sl : prop_slot L) : Prop :=
  match sl with PFlat x => steady (f_impl (pr_field p)) x | _ => pr_flatten p = false end.

(** What a property needs of its type. *)
Definition prop_calm (p : prop Sp L) : Prop :=
  if pr_flatten p then steady (f_impl (pr_field p)) (ti_default (f_impl (pr_field p)))
  else scalar_calm (pr_decode p) (f_impl (pr_field p)).

Lemma steady_property i x k v : steady i x ->
  yields (fun r => steady i (snd r)) (ti_insert_property i x k v).
Proof.
  intros (P & Px & C & Pr). eapply yields_weaken; [|apply (Pr x k v Px)].
  intros r Hr. exists P. auto.
Qed.

Lemma steady_child i x n : steady i x ->
  yields (fun r => steady i (snd r)) (ti_insert_child i x n).
Proof.
  intros (P & Px & C & Pr). eapply yields_weaken; [|apply (C x n Px)].
  intros r Hr. exists P. auto.
Qed.

Lemma calm_prop_branches name v (ps : list (prop Sp L)) :
  (forall p, In p ps -> prop_calm p) ->
  forall slots, Forall2 prop_fine ps slots ->
  yields (fun r => Forall2 prop_fine ps (snd r)) (prop_branches ps slots name v).
Proof.
  induction ps as [|p ps IH]; intros H slots F; inversion F as [|? sl ? slots' Fp Fs]; subst;
    cbn [prop_branches]; [apply yields_ok; constructor|].
  assert (H' : forall p, In p ps -> prop_calm p) by (intros; apply H; now right).
  assert (Hp : prop_calm p) by (apply H; now left).
  assert (Other : forall x, prop_fine p x -> yields (fun r => Forall2 prop_fine (p :: ps) (snd r))
            (d_map (fun '(t, ss) => (t, x :: ss)) (prop_branches ps slots' name v))).
  { intros x Hx. eapply yields_map; [apply IH; auto|]. intros [t ss] E. constructor; auto. }
  assert (Mine : pr_flatten p = false -> yields (fun r => Forall2 prop_fine (p :: ps) (snd r))
     (d_map (fun x => (true, (if pr_option p then POption x true else PPlain (Some x)) :: slots'))
              (decode_value (pr_decode p) (pr_option p) (f_impl (pr_field p)) v))).
  { intros N. unfold prop_calm in Hp. rewrite N in Hp.
    eapply yields_map; [apply calm_yields, calm_value, Hp|]. intros x _. constructor; [|assumption].
    destruct (pr_option p); exact N. }
  destruct sl as [x|x b|x].
  - eapply yields_bind; [apply steady_property; exact Fp|]. intros [[|] x'] Sx; cbn [snd] in Sx.
    + apply yields_ok. constructor; auto.
    + apply Other. exact Sx.
  - destruct (text_eqb _ _); [exact (Mine Fp)|now apply Other].
  - destruct (text_eqb _ _); [exact (Mine Fp)|now apply Other].
Qed.

Lemma Forall2_length' {A B} (P : A -> B -> Prop) l l' : Forall2 P l l' ->
  List.length l = List.length l'.
Proof. induction 1; cbn; auto. Qed.

Lemma prop_start_fine (ps : list (prop Sp L)) :
  (forall p, In p ps -> prop_calm p) ->
  Forall2 prop_fine ps (map prop_start ps).
Proof.
  induction ps as [|p ps IH]; intros H; constructor.
  - specialize (H p (or_introl eq_refl)). unfold prop_start, prop_calm in *.
    destruct (pr_flatten p) eqn:N; [exact H|destruct (pr_option p); exact N].
  - apply IH. intros; apply H; now right.
Qed.

Lemma calm_props s n :
  (forall p, In p (st_properties s) -> prop_calm p) ->
  (forall f m, st_var_props s = Some (f, m) -> scalar_calm m (f_impl f)) ->
  yields (fun xs => List.length xs = List.length (st_properties s) + size (st_var_props s))
    (decode_props s n).
Proof.
  intros H1 H2. unfold decode_props.
  eapply yields_bind with (P := fun r => Forall2 prop_fine (st_properties s) (fst r)).
  - generalize (prop_start_fine _ H1).
    generalize (map prop_start (st_properties s)), (@nil (dval L * dval L)).
    induction (n_properties (s_value n)) as [|[k v] kvs IH]; intros slots rest F;
      cbn [prop_loop]; [now apply yields_ok|].
    eapply yields_bind; [now apply calm_prop_branches|]. intros [[|] slots'] F'; [now apply IH|].
    destruct (st_var_props s) as [[f m]|]; [|apply yields_err].
    eapply yields_bind; [apply calm_yields, calm_convert|]. intros kk _.
    eapply yields_bind; [eapply calm_yields, calm_value, H2; reflexivity|]. intros x _. now apply IH.
  - intros [slots rest] F. cbn [fst] in F. apply Forall2_length' in F.
    eapply yields_map.
    + apply yields_collect. intros [p sl] _ c. cbn [prop_finish].
      destruct sl as [x|x b|[x|]]; try destruct (pr_default p); discriminate.
    + intros xs E. rewrite app_length, E, combine_length, <- F, Nat.min_id.
      now destruct (st_var_props s).
Qed.

Definition child_fine (d : child Sp L) (sl : child_slot L) : Prop :=
  match sl with
  | CFlat x => steady (f_impl (ch_field d)) x
  | CMulti _ | CNormal _ => ch_mode d <> CmFlatten /\ ch_mode d <> CmBool
  | CBool _ => True
  end.

Lemma calm_child_branches dn n (ds : list (child Sp L)) :
  (forall d, In d ds -> ch_mode d <> CmFlatten /\ ch_mode d <> CmBool -> calm (dn d n)) ->
  forall slots, Forall2 child_fine ds slots ->
  yields (fun r => Forall2 child_fine ds (snd r)) (child_branches dn ds slots n).
Proof.
  induction ds as [|d ds IH]; intros K slots F; inversion F as [|? sl ? slots' Fp Fs]; subst;
    cbn [child_branches]; [apply yields_ok; constructor|].
  assert (K' : forall d, In d ds -> ch_mode d <> CmFlatten /\ ch_mode d <> CmBool -> calm (dn d n)) by (intros e Ie; apply (K e); now right).
  assert (Kd : ch_mode d <> CmFlatten /\ ch_mode d <> CmBool -> calm (dn d n)) by (apply (K d); now left).
  assert (Other : forall x, child_fine d x -> yields (fun r => Forall2 child_fine (d :: ds) (snd r))
            (d_map (fun '(t, ss) => (t, x :: ss)) (child_branches dn ds slots' n))).
  { intros x Hx. eapply yields_map; [apply IH; auto|]. intros [t ss] E. constructor; auto. }
  destruct sl as [x|xs|x|b].
  - eapply yields_bind; [apply steady_child; exact Fp|]. intros [[|] x'] Sx; cbn [snd] in Sx.
    + apply yields_ok. constructor; auto.
    + apply Other. exact Sx.
  - destruct (text_eqb _ _); [|now apply Other].
    eapply yields_map; [apply calm_yields, Kd, Fp|]. intros y _. now constructor.
  - destruct (text_eqb _ _); [|now apply Other].
    destruct x; [apply yields_err|]. eapply yields_map; [apply calm_yields, Kd, Fp|]. intros y _. now constructor.
  - destruct (text_eqb _ _); [|now apply Other].
    intros c. destruct b; cbn [snd]; now constructor.
Qed.

Lemma child_start_fine (ds : list (child Sp L)) :
  (forall d, In d ds -> ch_mode d = CmFlatten ->
    steady (f_impl (ch_field d)) (ti_default (f_impl (ch_field d)))) ->
  Forall2 child_fine ds (map child_start ds).
Proof.
  induction ds as [|d ds IH]; intros H; constructor.
  - unfold child_start. destruct (ch_mode d) eqn:M; cbn; rewrite ?M; try (split; discriminate); try exact I.
    apply H; [now left|exact M].
  - apply IH. intros e Ie. apply (H e). now right.
Qed.

Lemma calm_children dn dv s es ns :
  (forall d, In d (st_children s) -> ch_mode d = CmFlatten ->
    steady (f_impl (ch_field d)) (ti_default (f_impl (ch_field d)))) ->
  (forall d n, In d (st_children s) -> ch_mode d <> CmFlatten /\ ch_mode d <> CmBool -> calm (dn d n)) ->
  (forall f n, dv = Some f -> calm (f n)) ->
  yields (fun xs => List.length xs = List.length (st_children s) + size dv)
    (decode_children dn dv s es ns).
Proof.
  intros H1 H2 H3. unfold decode_children.
  eapply yields_bind with (P := fun r => Forall2 child_fine (st_children s) (fst r)).
  - generalize (child_start_fine _ H1).
    generalize (map child_start (st_children s)), (@nil (dval L)).
    induction ns as [|n ns IH]; intros slots rest F; cbn [child_loop]; [now apply yields_ok|].
    eapply yields_bind; [apply calm_child_branches; auto|]. intros [[|] slots'] F'; [now apply IH|].
    destruct dv as [f|].
    + eapply yields_bind; [apply calm_yields, H3; reflexivity|]. intros x _. now apply IH.
    + eapply yields_bind; [apply yields_emit with (P := fun _ => True); exact I|]. intros x _. now apply IH.
  - intros [slots rest] F. cbn [fst] in F. apply Forall2_length' in F.
    eapply yields_map.
    + apply yields_collect. intros [d sl] _ c. cbn [child_finish].
      repeat match goal with
      | |- snd (d_ok _ _) <> _ => discriminate
      | |- snd (d_err _ _) <> _ => discriminate
      | |- context [match ?x with _ => _ end] => destruct x
      end.
    + intros xs E. rewrite app_length, E, combine_length, <- F, Nat.min_id. now destruct dv.
Qed.

(** ** Unwrapping *)

Ltac finish U :=
  intros; repeat match goal with
  | H : _ \/ _ |- _ => destruct H
  | H : False |- _ => contradiction
  | H : Some _ = Some _ |- _ => first [injection H as <- <-|injection H as <-]
  end; subst; unfold prop_calm; cbn in *; try (exact U || exact (proj2 U) || congruence);
    try (exfalso; match goal with H : _ <> _ /\ _ |- _ => destruct H; congruence end);
    try (rewrite andb_false_r in *; discriminate).

Lemma calm_unwrap name i : forall (a : field_attrs L), unwrap_calm i a ->
  forall n, calm (unwrap_fn kebab name i a n).
Proof.
  fix go 1. intros [mode decode unwrap default] U n. cbn [unwrap_fn].
  assert (In_ : (match mode with Some (FmChild | FmChildren _) => True | _ => False end) -> forall n, calm
     ((match unwrap with Some u => unwrap_fn kebab name i u | None => ti_node i end) n)).
  { intros M m. destruct unwrap as [u|]; [apply go|];
      (destruct mode as [[]|]; try contradiction); exact U || apply U. }
  clear go. cbn [unwrap_calm] in U.
  set (inner := match unwrap with Some u => unwrap_fn kebab name i u | None => ti_node i end) in *.
  unfold unwrap_struct.
  apply yields_calm with (P := fun _ => True).
  assert (Fin : forall (xs ys zs : list (dval L)), List.length xs + List.length ys + List.length zs > 0 ->
     yields (Sp := Sp) (fun _ => True) (match rev (xs ++ ys ++ zs) with x :: _ => d_ok x | [] => d_panic end)).
  { intros xs ys zs G. destruct (rev (xs ++ ys ++ zs)) eqn:E; [|now apply yields_ok].
    apply (f_equal (@List.length _)) in E. rewrite rev_length, !app_length in E. cbn in E. lia. }
  destruct mode as [[|key| | |key| |child property| | |]|]; try contradiction;
    [| | | |destruct key| |destruct child, property; try (destruct U as [[|] _]; discriminate)];
    cbn [add_field fa_mode fa_decode fa_unwrap fa_default builder_new f_attr new_named is_some andb negb];
    try destruct key; cbn [build];
    (eapply yields_bind; [apply calm_args; cbn; try discriminate; finish U|]);
    intros xs Ex;
    (eapply yields_bind; [apply calm_props; cbn; try discriminate; finish U|]);
    intros ys Ey;
    (eapply yields_bind; [apply calm_children; cbn; try discriminate; finish U; try (apply In_; exact I)|]);
    intros zs Ez; apply Fin; cbn in *; lia.
Qed.

(** ** Structs *)

Record calm_struct s : Prop := CalmStruct {
  cs_arguments : forall a, In a (st_arguments s) -> scalar_calm (ar_decode a) (f_impl (ar_field a));
  cs_var_args : forall f m, st_var_args s = Some (f, m) -> scalar_calm m (f_impl f);
  cs_properties : forall p, In p (st_properties s) -> prop_calm p;
  cs_var_props : forall f m, st_var_props s = Some (f, m) -> scalar_calm m (f_impl f);
  cs_flatten : forall d, In d (st_children s) -> ch_mode d = CmFlatten ->
    steady (f_impl (ch_field d)) (ti_default (f_impl (ch_field d)));
  cs_children : forall d, In d (st_children s) -> ch_mode d <> CmFlatten /\ ch_mode d <> CmBool ->
    nodes_calm (f_impl (ch_field d)) (ch_unwrap d);
  cs_var_children : forall f u, st_var_children s = Some (f, u) -> nodes_calm (f_impl f) u;
  cs_extra : forall f o, lone_extra s = Some (f, o) -> forall n, calm (ti_node (f_impl f) n);
}.

Lemma numbered_from (fs : list (src_field Sp L)) : forall k x,
  In x (combine (seq k (List.length fs)) fs) -> In (snd x) fs.
Proof.
  induction fs as [|f fs IH]; intros k x I; cbn in I; [contradiction|].
  destruct I as [<-|I]; [now left|right; eauto].
Qed.

Lemma numbered_in (fs : list (src_field Sp L)) x : In x (numbered fs) -> In (snd x) fs.
Proof. apply numbered_from. Qed.

Lemma lone_in {A B} (o : option A) (g : B -> list A) l x : lone o = flat_map g l ->
  o = Some x -> exists y, In y l /\ In x (g y).
Proof. intros E ->. apply in_flat_map. rewrite <- E. now left. Qed.

(** A struct with one field, without attributes. *)
Definition some_way (x : nat * src_field Sp L) : Prop := mode_of x <> Some (FmFlatten false false).

Lemma sorted_length (xs : list (nat * src_field Sp L)) : Forall some_way xs ->
  List.length xs <= List.length (sorted_fields kebab xs).
Proof.
  induction 1 as [|x xs W _ IH]; [cbn; lia|]. unfold some_way in W.
  unfold sorted_fields in *. rewrite ?app_length, ?map_length in *. cbn [flat_map List.length].
  rewrite ?app_length.
  assert (1 <= List.length (spans_of x) + List.length (node_names_of x) + List.length (type_names_of x)
    + List.length (arguments_of x) + List.length (var_args_of x) + List.length (properties_of kebab x)
    + List.length (var_props_of x) + List.length (children_of kebab x) + List.length (var_children_of x)
    + List.length (extra_of x)).
  { unfold spans_of, node_names_of, type_names_of, arguments_of, var_args_of, properties_of,
      var_props_of, children_of, var_children_of, extra_of.
    destruct (mode_of x) as [[| | | |[]| |[] []| | |]|]; cbn; lia || congruence. }
  lia.
Qed.

Lemma lone_only ident fs s f o : filed kebab ident fs s -> lone_extra s = Some (f, o) ->
  Forall some_way (numbered fs) -> exists g, fs = [g] /\ f = the_field (0, g) /\ mode_of (0, g) = None.
Proof.
  intros F E W. apply sorted_length in W. rewrite <- (all_fields_sorted kebab ident fs s F) in W.
  unfold lone_extra in E. destruct (all_fields s) as [|h [|]]; try discriminate.
  destruct (st_extra s) as [|x [|]] eqn:X; try discriminate. injection E as ->.
  rewrite (fi_extra _ _ _ _ F) in X. unfold numbered in *.
  rewrite combine_length, seq_length, Nat.min_id in W. cbn in W.
  destruct fs as [|g [|]]; cbn in W; try lia; [discriminate|].
  cbn in X. rewrite app_nil_r in X. unfold extra_of in X. exists g.
  destruct (mode_of (0, g)) as [[]|]; try discriminate. now injection X as <- _.
Qed.

Lemma filed_calm ident fs s : filed kebab ident fs s -> fields_calm fs -> calm_struct s.
Proof.
  intros F H. unfold fields_calm in H. rewrite Forall_forall in H. pose proof F as F0.
  destruct F. split.
  - rewrite fi_arguments. intros a Ia. apply in_flat_map in Ia. destruct Ia as (x & Ix & Ia).
    specialize (H x Ix). unfold field_calm in H.
    unfold arguments_of in Ia. destruct (mode_of x) as [[]|]; try contradiction.
    destruct Ia as [<-|[]]. exact H.
  - intros f m E. eapply lone_in in E; [|exact fi_var_args]. destruct E as (x & Ix & Ia).
    specialize (H x Ix). unfold field_calm in H.
    unfold var_args_of in Ia. destruct (mode_of x) as [[]|]; try contradiction.
    destruct Ia as [[= <- <-]|[]]. exact H.
  - rewrite fi_properties. intros a Ia. apply in_flat_map in Ia. destruct Ia as (x & Ix & Ia).
    specialize (H x Ix). unfold field_calm in H.
    unfold properties_of in Ia. destruct (mode_of x) as [[| | | | | |? []| | |]|]; try contradiction;
      destruct Ia as [<-|[]]; first [exact H|exact (proj2 H)].
  - intros f m E. eapply lone_in in E; [|exact fi_var_props]. destruct E as (x & Ix & Ia).
    specialize (H x Ix). unfold field_calm in H.
    unfold var_props_of in Ia. destruct (mode_of x) as [[]|]; try contradiction.
    destruct Ia as [[= <- <-]|[]]. exact H.
  - rewrite fi_children. intros a Ia. apply in_flat_map in Ia. destruct Ia as (x & Ix & Ia).
    specialize (H x Ix). unfold field_calm in H. unfold children_of in Ia.
    destruct (mode_of x) as [[| | | |[]| |[] ?| | |]|]; try contradiction;
      destruct Ia as [<-|[]]; cbn [ch_field ch_mode]; try discriminate; intros M.
    + destruct (unwrap_of x), (boolean x); discriminate.
    + exact (proj2 H).
  - rewrite fi_children. intros a Ia. apply in_flat_map in Ia. destruct Ia as (x & Ix & Ia).
    specialize (H x Ix). unfold field_calm in H. unfold children_of in Ia.
    destruct (mode_of x) as [[| | | |[]| |[] ?| | |]|]; try contradiction;
      destruct Ia as [<-|[]]; cbn [ch_field ch_mode ch_unwrap]; intros [M1 M2].
    + exact H.
    + destruct H as [[B U]|H]; [|exact H]. rewrite U, B in M2. congruence.
    + congruence.
  - intros f u E. eapply lone_in in E; [|exact fi_var_children]. destruct E as (x & Ix & Ia).
    specialize (H x Ix). unfold field_calm in H.
    unfold var_children_of in Ia. destruct (mode_of x) as [[| | | |[]| |[] ?| | |]|]; try contradiction.
    destruct Ia as [[= <- <-]|[]]. exact H.
  - intros f o E.
    assert (X : exists g, fs = [g] /\ f = the_field (0, g) /\ mode_of (0, g) = None).
    { eapply lone_only; [exact F0|exact E|]. apply Forall_forall. intros x Ix M. specialize (H x Ix).
      unfold field_calm in H. rewrite M in H. destruct H as [[|] _]; discriminate. }
    destruct X as (g & -> & -> & M). specialize (H (0, g) (or_introl eq_refl)).
    unfold field_calm in H. rewrite M in H. now apply H.
Qed.

Lemma calm_node_fn (f : field Sp L) u n : nodes_calm (f_impl f) u -> calm (node_fn kebab f u n).
Proof. intros C. unfold node_fn. destruct u; [now apply calm_unwrap|apply C]. Qed.

Lemma calm_struct_children s es ns : calm_struct s -> calm (struct_children kebab s es ns).
Proof.
  intros C. eapply yields_calm. apply calm_children.
  - apply (cs_flatten _ C).
  - intros d n Id M. apply calm_node_fn. now apply (cs_children _ C).
  - intros f n E. unfold var_child_fn in E. destruct (st_var_children s) as [[g u]|] eqn:V; [|discriminate].
    injection E as <-. apply calm_node_fn. eapply (cs_var_children _ C); exact V.
Qed.

Lemma calm_struct_args s n : calm_struct s -> calm (decode_args s n).
Proof.
  intros C. eapply yields_calm. apply calm_args; [apply (cs_arguments _ C)|apply (cs_var_args _ C)].
Qed.

Lemma calm_struct_props s n : calm_struct s -> calm (decode_props s n).
Proof.
  intros C. eapply yields_calm. apply calm_props; [apply (cs_properties _ C)|apply (cs_var_props _ C)].
Qed.

Lemma calm_ok {A} (a : A) : calm (Sp := Sp) (d_ok a).
Proof. intros c. discriminate. Qed.

Lemma calm_struct_node named s n : calm_struct s -> calm (struct_node kebab named s n).
Proof.
  intros C. unfold struct_node.
  apply calm_bind; [apply calm_specials|]. intros ws.
  apply calm_bind; [now apply calm_struct_args|]. intros xs.
  apply calm_bind; [now apply calm_struct_props|]. intros ys.
  apply calm_bind; [now apply calm_struct_children|]. intros zs. apply calm_ok.
Qed.

Definition calm_derived (d : derived Sp L) : Prop :=
  (forall n, calm (dr_node d n))
  /\ (forall f, dr_children d = Some f -> forall ns, calm (f ns)).

Lemma emit_struct_calm named s d : calm_struct s -> emit_struct kebab named s = Some d ->
  calm_derived d.
Proof.
  intros C. unfold emit_struct. destruct ((named || tuple_ok s) && unwraps_compile kebab s); [|discriminate].
  intros E. injection E as <-. split; cbn [dr_node dr_children].
  - intros n. now apply calm_struct_node.
  - intros f E ns. destruct (_ && _); [|discriminate]. injection E as <-.
    unfold struct_document. apply calm_bind; [now apply calm_struct_children|].
    intros. apply calm_ok.
Qed.

Definition calm_kind (k : variant_kind Sp L) : Prop :=
  match k with
  | VkUnit => True
  | VkNested _ i => forall n, calm (ti_node i n)
  | VkTuple s | VkNamed s => calm_struct s
  end.

Lemma calm_variant e (v : variant Sp L) f n : calm_kind (va_kind v) ->
  variant_node kebab e v = Some f -> calm (f n).
Proof.
  unfold variant_node. destruct (va_kind v) as [|[|] i|s|s]; cbn [calm_kind]; intros H E.
  - injection E as <-. intros c. discriminate.
  - injection E as <-. destruct (has_content (s_value n)); [|apply calm_ok].
    apply calm_map, H.
  - injection E as <-. apply calm_map, H.
  - destruct (no_specials s && tuple_ok s && unwraps_compile kebab s); [|discriminate]. injection E as <-.
    unfold decode_enum_item.
    apply calm_bind; [now apply calm_struct_args|]. intros xs.
    apply calm_bind; [now apply calm_struct_props|]. intros ys.
    apply calm_bind; [now apply calm_struct_children|]. intros zs. apply calm_ok.
  - discriminate.
Qed.

Lemma calm_branches ident : forall (vs : list (variant Sp L)) bs,
  Forall (fun v => calm_kind (va_kind v)) vs -> variant_branches kebab ident vs = Some bs ->
  Forall (fun b => forall n, calm (snd b n)) bs.
Proof.
  induction vs as [|v vs IH]; intros bs H E; cbn [variant_branches] in E.
  - injection E as <-. constructor.
  - inversion H; subst. destruct (variant_node kebab ident v) as [b|] eqn:V; [|discriminate].
    destruct (variant_branches kebab ident vs) as [bs'|]; [|discriminate]. injection E as <-.
    constructor; [|auto]. intros n. cbn [snd]. eapply calm_variant; eauto.
Qed.

Lemma match_calm name (bs : list (text * node_impl Sp (dval L))) d n :
  Forall (fun b => forall n, calm (snd b n)) bs -> match_name name bs = Some d -> calm (d n).
Proof.
  induction 1 as [|[k b] bs H _ IH]; cbn [match_name]; [discriminate|].
  destruct (text_eqb _ _); [|exact IH]. intros E. injection E as <-. apply H.
Qed.

Lemma struct_new_calm ident (fs : list (src_field Sp L)) s : struct_new kebab ident fs = inl (s, []) ->
  fields_calm fs -> calm_struct s.
Proof. intros N. apply struct_new_filed in N. destruct N as [F _]. now apply filed_calm with ident. Qed.

Lemma enum_calm : forall (vs : list (src_variant Sp L)) l,
  Forall (fun v => fields_calm (fields_in (sv_fields v))) vs ->
  enum_new kebab vs = inl (l, []) -> Forall (fun v => calm_kind (va_kind v)) l.
Proof.
  induction vs as [|v vs IH]; intros l H E; cbn [enum_new] in E.
  - injection E as <-. constructor.
  - apply Forall_cons_iff in H. destruct H as [H1 H2].
    destruct (variant_skip (sv_attrs v)).
    + destruct (enum_new kebab vs) as [[l' em']|]; [|discriminate]. injection E as <- E.
      apply app_eq_nil in E. destruct E as [_ ->]. now apply IH.
    + destruct (variant_new kebab v) as [[x em1]|] eqn:V; [|discriminate].
      destruct (enum_new kebab vs) as [[l' em']|]; [|discriminate]. injection E as <- E.
      apply app_eq_nil in E. destruct E as [_ E]. apply app_eq_nil in E. destruct E as [-> ->].
      constructor; [|now apply IH]. clear IH. unfold variant_new in V.
      destruct (sv_fields v) as [fs|fs|]; cbn [fields_in] in H1.
      * destruct (struct_new kebab _ fs) as [[s em']|] eqn:N; [|discriminate].
        injection V as <- ->. eapply struct_new_calm; eauto.
      * destruct (struct_new kebab _ fs) as [[s em']|] eqn:N; [|discriminate].
        injection V as <- ->. apply struct_new_calm in N; auto. cbn [va_kind].
        destruct (lone_extra s) as [[f o]|] eqn:Lo; [|exact N]. exact (cs_extra _ N _ _ Lo).
      * injection V as <-. exact I.
Qed.

Lemma derive_calm (i : src_item Sp L) d :
  item_calm i -> decode_derive kebab i = Some d -> calm_derived d.
Proof.
  unfold decode_derive. intros H E.
  destruct (definition_parse kebab i) as [[df [|]]|] eqn:P; try discriminate.
  destruct i as [ident cont [fs|fs|]|ident cont vs]; cbn [definition_parse item_calm fields_in] in *.
  - destruct (struct_new kebab _ fs) as [[s em']|] eqn:N; [|discriminate].
    injection P as <- Z. apply app_eq_nil in Z. destruct Z as [_ ->].
    eapply emit_struct_calm, E. eapply struct_new_calm; eauto.
  - destruct (struct_new kebab _ fs) as [[s em']|] eqn:N; [|discriminate].
    injection P as <- Z. apply app_eq_nil in Z. destruct Z as [_ ->].
    apply struct_new_calm in N; auto.
    destruct (lone_extra s) as [[f o]|] eqn:Lo; cbn [emit_decoder] in E.
    + injection E as <-. split; cbn; [|discriminate]. intros n. unfold new_type_node.
      destruct (has_content (s_value n)); [|apply calm_ok].
      apply calm_map, (cs_extra _ N _ _ Lo).
    + eapply emit_struct_calm, E. exact N.
  - destruct (struct_new kebab ident []) as [[s em']|] eqn:N; [|discriminate].
    injection P as <- Z. apply app_eq_nil in Z. destruct Z as [_ ->].
    eapply emit_struct_calm, E. eapply struct_new_calm; eauto.
  - destruct (enum_new kebab vs) as [[l em']|] eqn:N; [|discriminate].
    injection P as <- Z. apply app_eq_nil in Z. destruct Z as [_ ->].
    cbn [emit_decoder] in E. destruct (variant_branches kebab ident l) as [bs|] eqn:B; [|discriminate].
    injection E as <-. split; cbn; [|discriminate]. intros n. unfold enum_node.
    destruct (match_name _ bs) as [b|] eqn:M; [|intros c; discriminate].
    eapply match_calm; [|exact M]. eapply calm_branches; [|exact B]. now apply enum_calm with vs.
Qed.

End Monad.

(** ** Inserting into a struct *)

Lemma access_eqb_refl a : access_eqb a a = true.
Proof. now apply access_eqb_spec. Qed.

Lemma get_set_same {L} a (y : dval L) : forall vals x, get_field a vals = Some x ->
  get_field a (set_field a y vals) = Some y.
Proof.
  induction vals as [|[b v] vals IH]; intros x; cbn [get_field set_field]; [discriminate|].
  destruct (access_eqb a b) eqn:E; cbn [get_field]; rewrite E; eauto.
Qed.

Lemma get_set_other {L} a b (y : dval L) : a <> b -> forall vals,
  get_field b (set_field a y vals) = get_field b vals.
Proof.
  intros N. induction vals as [|[k v] vals IH]; cbn [get_field set_field]; [reflexivity|].
  destruct (access_eqb a k) eqn:E; cbn [get_field].
  - apply access_eqb_spec in E. subst k. destruct (access_eqb b a) eqn:E'; [|reflexivity].
    apply access_eqb_spec in E'. congruence.
  - destruct (access_eqb b k); [reflexivity|exact IH].
Qed.

Lemma option_not_bool t : is_option t = true -> is_bool t = false.
Proof.
  destruct t as [[] [] [|[s []] []]|]; unfold is_option, is_bool; try discriminate; auto.
  destruct (text_eqb_reflect s (str "Option")) as [->|]; [reflexivity|discriminate].
Qed.

Section Insert.
Context {Sp L : Type} (kebab : text -> text) (ident : text).
Variables (fs : list (src_field Sp L)) (s : struct Sp L).
Hypothesis F : filed kebab ident fs s.
Hypothesis H : fields_calm fs.
Hypothesis D : NoDup (map (fun x => f_attr (the_field x)) (numbered fs)).
Hypothesis PC : partial_compatible s = true.
Hypothesis NL : no_optional_lists fs.

Definition fields_shape (vals : list (access * dval L)) : Prop :=
  forall x, In x (numbered fs) ->
  exists y, get_field (f_attr (the_field x)) vals = Some y /\ field_shape x y.

Lemma NoDup_map_eq {A B} (g : A -> B) l a b : NoDup (map g l) -> In a l -> In b l ->
  g a = g b -> a = b.
Proof.
  induction l as [|c l IH]; cbn; intros N Ia Ib E; [contradiction|].
  apply NoDup_cons_iff in N. destruct N as [N1 N2].
  destruct Ia as [<-|Ia], Ib as [<-|Ib]; auto.
  - exfalso. apply N1. rewrite E. now apply in_map.
  - exfalso. apply N1. rewrite <- E. now apply in_map.
Qed.

Lemma set_shape vals x y : fields_shape vals -> In x (numbered fs) -> field_shape x y ->
  fields_shape (set_field (f_attr (the_field x)) y vals).
Proof.
  intros V Ix Hy z Iz.
  destruct (access_eqb (f_attr (the_field x)) (f_attr (the_field z))) eqn:E.
  - apply access_eqb_spec in E. assert (x = z) by (eapply NoDup_map_eq; eauto). subst z.
    destruct (V x Ix) as (v & G & _). exists y. split; [|exact Hy]. eapply get_set_same, G.
  - destruct (V z Iz) as (v & G & S). exists v. split; [|exact S]. rewrite get_set_other; [exact G|].
    intros Q. rewrite Q, access_eqb_refl in E. discriminate.
Qed.

Lemma partial_child d : In d (st_children s) -> child_can_partial d = true.
Proof.
  unfold partial_compatible in PC. rewrite !andb_true_iff in PC. intros I.
  destruct PC as (_ & Q & _). rewrite forallb_forall in Q. now apply Q.
Qed.

Lemma insert_child_fine n : forall ds, incl ds (st_children s) -> forall vals, fields_shape vals ->
  yields (fun r => fields_shape (snd r)) (insert_child kebab ds vals n).
Proof.
  pose proof (filed_calm kebab _ _ _ F H) as C.
  induction ds as [|d ds IH]; intros Inc vals V; cbn [insert_child]; [now apply yields_ok|].
  assert (Id : In d (st_children s)) by (apply Inc; now left).
  assert (Inc' : incl ds (st_children s)) by (intros e Ie; apply Inc; now right).
  specialize (IH Inc').
  pose proof (partial_child d Id) as Pd. pose proof (cs_children _ C d Id) as Cd.
  pose proof Id as Id'. rewrite (fi_children _ _ _ _ F) in Id'.
  apply in_flat_map in Id'. destruct Id' as (x & Ix & Dx).
  destruct (V x Ix) as (y & G & S). unfold field_shape in S. unfold children_of in Dx.
  destruct (mode_of x) as [[| | | |[name|]| |[|] property| | |]|] eqn:M; try contradiction;
    destruct Dx as [<-|[]]; cbn [ch_mode ch_field ch_name f_attr the_field f_impl] in *;
    cbn [f_attr the_field] in G.
  - (* children(name = ..) *)
    unfold child_can_partial in Pd. cbn in Pd. rewrite (NL x name Ix M) in Pd. discriminate Pd.
  - (* child *)
    assert (Mode : (unwrap_of x = None /\ boolean x = true) \/ optional x = true).
    { unfold child_can_partial in Pd. cbn in Pd. destruct (optional x); [now right|]. left.
      destruct (unwrap_of x); [discriminate|]. destruct (boolean x); [auto|discriminate]. }
    destruct Mode as [[U B]|O].
    + rewrite U, B. destruct (text_eqb _ _); [|now apply IH]. intros c. rewrite G.
      destruct S as [_ S]. destruct (S B) as [[|] ->]; cbn [snd]; [exact V|].
      apply set_shape; auto. unfold field_shape. rewrite M. split; [|eauto].
      intros O. unfold optional in O. apply option_not_bool in O. unfold boolean in B. congruence.
    + assert (Nb : boolean x = false) by (now apply option_not_bool).
      rewrite Nb.
      replace (match unwrap_of x with Some _ => CmNormal | None => CmNormal end) with CmNormal
        by now destruct (unwrap_of x).
      destruct (text_eqb _ _); [|now apply IH]. rewrite G.
      eapply yields_bind with (P := fun _ => True).
      * destruct S as [S _]. destruct (S O) as [->|[z ->]]; [now apply yields_ok|now apply yields_emit].
      * intros _ _. eapply yields_map.
        { apply calm_yields. apply calm_node_fn. apply Cd. rewrite Nb. now destruct (unwrap_of x). }
        intros z _. cbn [snd]. apply set_shape; auto. unfold field_shape. rewrite M.
        split; [eauto|]. congruence.
  - (* flatten *)
    rewrite G. eapply yields_bind; [now apply steady_child|]. intros [[|] z] Sz; cbn [snd] in Sz.
    + apply yields_ok. cbn [snd]. apply (set_shape vals x z V Ix). unfold field_shape. now rewrite M.
    + apply IH. apply (set_shape vals x z V Ix). unfold field_shape. now rewrite M.
Qed.

Lemma insert_property_fine k v : forall ps, incl ps (st_properties s) -> forall vals,
  fields_shape vals -> yields (fun r => fields_shape (snd r)) (insert_property ps vals k v).
Proof.
  pose proof (filed_calm kebab _ _ _ F H) as C.
  induction ps as [|p ps IH]; intros Inc vals V; cbn [insert_property]; [now apply yields_ok|].
  assert (Ip : In p (st_properties s)) by (apply Inc; now left).
  assert (Inc' : incl ps (st_properties s)) by (intros e Ie; apply Inc; now right).
  specialize (IH Inc'). pose proof (cs_properties _ C p Ip) as Cp.
  pose proof Ip as Ip'. rewrite (fi_properties _ _ _ _ F) in Ip'.
  apply in_flat_map in Ip'. destruct Ip' as (x & Ix & Px).
  destruct (V x Ix) as (y & G & S). unfold field_shape in S. unfold properties_of in Px.
  destruct (mode_of x) as [[|name| | | | |child [|]| | |]|] eqn:M; try contradiction;
    destruct Px as [<-|[]]; cbn [pr_flatten pr_field pr_name f_attr the_field f_impl pr_option pr_decode] in *;
    cbn [f_attr the_field] in G.
  - destruct (text_eqb _ _); [|now apply IH].
    eapply yields_map; [apply calm_yields, calm_value; exact Cp|]. intros z _. cbn [snd].
    apply set_shape; auto. unfold field_shape. now rewrite M.
  - rewrite G. eapply yields_bind; [now apply steady_property|]. intros [[|] z] Sz; cbn [snd] in Sz.
    + apply yields_ok. cbn [snd]. apply (set_shape vals x z V Ix). unfold field_shape. now rewrite M.
    + apply IH. apply (set_shape vals x z V Ix). unfold field_shape. now rewrite M.
Qed.

End Insert.

Lemma on_self_fine {Sp L} (fs : list (src_field Sp L)) f x : struct_shape fs x -> fs <> [] \/ (exists id vals, x = VStruct id vals) ->
  (forall vals, fields_shape fs vals -> yields (fun r => fields_shape fs (snd r)) (f vals)) ->
  yields (fun r => struct_shape fs (snd r) /\ exists id vals, snd r = VStruct id vals)
    (on_self (Sp := Sp) (L := L) f x).
Proof.
  intros S N K.
  assert (E : exists id vals, x = VStruct id vals).
  { destruct N as [N|N]; [|exact N]. destruct fs as [|g fs']; [congruence|].
    destruct (S (0, g)) as (y & Hy & _); [now left|]. destruct x; try contradiction. eauto. }
  destruct E as (id & vals & ->). cbn [on_self].
  eapply yields_map; [apply K; exact S|]. intros [b vals'] V. cbn [snd] in *. split; [exact V|eauto].
Qed.

Lemma struct_steady {Sp L} kebab named ident cont (fs : list (src_field Sp L)) d ic ip :
  decode_derive kebab (struct_item named ident cont fs) = Some d ->
  (if named then names_given fs else names_absent fs) ->
  fields_calm fs -> no_optional_lists fs ->
  dr_insert_child d = Some ic -> dr_insert_property d = Some ip ->
  forall id vals, struct_shape fs (VStruct id vals) -> steady_for ic ip (VStruct id vals).
Proof.
  intros E N C NL Ic Ip id vals S.
  assert (D : NoDup (map (fun x => f_attr (the_field x)) (numbered fs))).
  { destruct named; [now apply NoDup_names|now apply NoDup_indexes]. }
  assert (X : exists s, struct_new kebab ident fs = inl (s, []) /\ emit_struct kebab named s = Some d).
  { unfold decode_derive, struct_item, definition_parse in E. destruct named.
    - destruct (struct_new kebab ident fs) as [[s em]|]; [|discriminate].
      destruct (container_emitted cont ++ em) as [|] eqn:Q; [|discriminate].
      apply app_eq_nil in Q. destruct Q as [_ ->]. exists s. auto.
    - destruct (struct_new kebab ident fs) as [[s em]|]; [|discriminate].
      destruct (container_emitted cont ++ em) as [|] eqn:Q; [|discriminate].
      apply app_eq_nil in Q. destruct Q as [_ ->]. exists s. split; [reflexivity|].
      destruct (lone_extra s) as [[f o]|]; [|exact E]. cbn in E. injection E as <-. discriminate. }
  destruct X as (s & N' & Es). apply struct_new_filed in N'. destruct N' as [F _].
  unfold emit_struct in Es. destruct ((named || tuple_ok s) && unwraps_compile kebab s); [|discriminate]. injection Es as <-.
  cbn [dr_insert_child dr_insert_property] in Ic, Ip.
  destruct (partial_compatible s) eqn:PC; [|discriminate]. injection Ic as <-. injection Ip as <-.
  exists (fun y => struct_shape fs y /\ exists id vals, y = VStruct id vals).
  split; [split; [exact S|eauto]|]. split.
  - intros y n [Sy Ey]. apply (on_self_fine fs _ y Sy (or_intror Ey)).
    intros vals' V. eapply insert_child_fine; eauto. apply incl_refl.
  - intros y k v [Sy Ey]. apply (on_self_fine fs _ y Sy (or_intror Ey)).
    intros vals' V. eapply insert_property_fine; eauto. apply incl_refl.
Qed.
