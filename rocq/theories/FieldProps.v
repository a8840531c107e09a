(** The derive files the fields as FieldSpec.v says, and each value gets to its field. *)

From Coq Require Import NArith List Bool String Lia Arith Permutation.
From Verif Require Import Chars Ast Errors Decode Scalar DeriveDef Derive LexIdent ScalarProps FieldSpec.
Import ListNotations.

(** ** Attributes *)

Lemma attrs_fold {L} (attrs : list (attr L)) : forall m d u df em a em',
  fold_left update_attr attrs (FieldAttrs m d u df, em) = (a, em') -> em' = [] ->
  em = []
  /\ lone (fa_mode a) = lone m ++ picks mode_attr attrs
  /\ lone (fa_decode a) = lone d ++ picks decode_attr attrs
  /\ lone (fa_unwrap a) = lone u ++ picks unwrap_attr attrs
  /\ lone (fa_default a) = lone df ++ picks default_attr attrs.
Proof.
  induction attrs as [|x attrs IH]; intros m d u df em a em' H E.
  - cbn in H. injection H as <- <-. cbn. rewrite !app_nil_r. auto.
  - cbn [fold_left] in H. destruct x; cbn [update_attr] in H; apply IH in H; auto;
      destruct H as (H0 & H1 & H2 & H3 & H4); apply app_eq_nil in H0; destruct H0 as [-> Q];
      try discriminate; cbn [picks flat_map mode_attr decode_attr unwrap_attr default_attr app];
      fold (picks (A := attr L) mode_attr) (picks (A := attr L) decode_attr)
           (picks (A := attr L) unwrap_attr) (picks (A := attr L) default_attr).
    + destruct d; [discriminate|]. auto.
    + destruct m; [discriminate|]. auto.
    + destruct u; [discriminate|]. auto.
    + destruct df; [discriminate|]. auto.
Qed.

Lemma lone_hd {A} (o : option A) l : lone o = l -> o = hd_error l.
Proof. intros <-. now destruct o. Qed.

Lemma attrs_update_ok {Sp L} i (fld : src_field Sp L) a :
  attrs_update (sf_attrs fld) = (a, []) ->
  fa_mode a = mode_of (i, fld)
  /\ (match fa_decode a with Some m => m | None => DmNormal end) = decode_of (i, fld)
  /\ fa_unwrap a = unwrap_of (i, fld)
  /\ fa_default a = default_of (i, fld).
Proof.
  intros H. apply attrs_fold in H; [|reflexivity]. destruct H as (_ & H1 & H2 & H3 & H4).
  cbn [lone app] in *. unfold mode_of, decode_of, unwrap_of, default_of. cbn [snd].
  rewrite <- H2. split; [now apply lone_hd|]. split; [now destruct (fa_decode a)|].
  split; now apply lone_hd.
Qed.

(** ** Filing *)

Section Files.
Context {Sp L : Type} (kebab : text -> text).

Record files (b : builder Sp L) (xs : list (nat * src_field Sp L)) (b' : builder Sp L) : Prop := {
  fs_emitted : sb_emitted b = [];
  fs_ident : sb_ident b' = sb_ident b;
  fs_spans : sb_spans b' = sb_spans b ++ flat_map spans_of xs;
  fs_node_names : sb_node_names b' = sb_node_names b ++ flat_map node_names_of xs;
  fs_type_names : sb_type_names b' = sb_type_names b ++ flat_map type_names_of xs;
  fs_arguments : sb_arguments b' = sb_arguments b ++ flat_map arguments_of xs;
  fs_var_args : lone (sb_var_args b') = lone (sb_var_args b) ++ flat_map var_args_of xs;
  fs_properties : sb_properties b' = sb_properties b ++ flat_map (properties_of kebab) xs;
  fs_var_props : lone (sb_var_props b') = lone (sb_var_props b) ++ flat_map var_props_of xs;
  fs_children : sb_children b' = sb_children b ++ flat_map (children_of kebab) xs;
  fs_var_children :
    lone (sb_var_children b') = lone (sb_var_children b) ++ flat_map var_children_of xs;
  fs_extra : sb_extra b' = sb_extra b ++ flat_map extra_of xs;
  fs_no_args : sb_var_args b <> None ->
    Forall (fun x => after_all (Some FmArguments) (mode_of x)) xs;
  fs_no_props : sb_var_props b <> None ->
    Forall (fun x => after_all (Some FmProperties) (mode_of x)) xs;
  fs_no_children : sb_var_children b <> None ->
    Forall (fun x => after_all (Some (FmChildren None)) (mode_of x)) xs;
}.

Lemma no_decode_nil (a : field_attrs L) e em : em ++ no_decode a e = [] -> em = [].
Proof. intros H. now apply app_eq_nil in H. Qed.

Lemma add_field_files b (x : nat * src_field Sp L) a b' :
  attrs_update (sf_attrs (snd x)) = (a, []) ->
  add_field kebab b (the_field x) (optional x) (boolean x) a = inl b' ->
  sb_emitted b' = [] -> files b [x] b'.
Proof.
  intros A H E. destruct x as [i fld]. cbn [snd] in A.
  apply (attrs_update_ok i) in A. destruct A as (A1 & A2 & A3 & A4).
  destruct b as [ident spans nn tn ar va p vp ch vc ex em].
  unfold add_field in H. rewrite A1, A2, A3, A4 in H. clear A1 A2 A3 A4.
  Local Ltac filing M :=
    split; cbn [sb_ident sb_spans sb_node_names sb_type_names sb_arguments sb_var_args
      sb_properties sb_var_props sb_children sb_var_children sb_extra sb_emitted];
    unfold spans_of, node_names_of, type_names_of, arguments_of, var_args_of,
      properties_of, var_props_of, children_of, var_children_of, extra_of;
    cbn [flat_map]; rewrite ?M; cbn [app lone]; rewrite ?app_nil_r; auto;
    try (let X := fresh in intros X; first [exfalso; apply X; reflexivity
      | constructor; [rewrite M; exact I|constructor]]).
  destruct (mode_of (i, fld)) as [[|name| | |[name|]| |fc fp| | |]|] eqn:M.
  - destruct va; [discriminate|]. injection H as <-. filing M.
  - destruct vp; [discriminate|].
    assert (Q : match (match name, f_attr (the_field (i, fld)) with
                 | Some n, _ => Some n
                 | None, Named n => Some (kebab n)
                 | None, Indexed _ => None
                 end) with Some n => n = key_of kebab (i, fld) name | None => True end).
    { unfold the_field, key_of. cbn [f_attr snd fst].
      destruct name; [reflexivity|]. destruct (sf_name fld); exact (@eq_refl _ _) || exact I. }
    destruct (match name, f_attr (the_field (i, fld)) with
                 | Some n, _ => Some n
                 | None, Named n => Some (kebab n)
                 | None, Indexed _ => None
                 end) as [n|]; [|discriminate]. subst n. injection H as <-. filing M.
  - destruct va; [discriminate|]. injection H as <-. filing M.
  - destruct vp; [discriminate|]. injection H as <-. filing M.
  - destruct vc; [discriminate|]. injection H as <-. apply no_decode_nil in E. filing M.
  - destruct vc; [discriminate|]. injection H as <-. apply no_decode_nil in E. filing M.
  - destruct vc; [discriminate|]. destruct (f_attr (the_field (i, fld))) as [k|k] eqn:F;
      [discriminate|]. injection H as <-. apply no_decode_nil in E.
    assert (Q : kebab k = key_of kebab (i, fld) None).
    { unfold the_field in F. cbn [f_attr snd fst] in F. unfold key_of. cbn [snd].
      destruct (sf_name fld); [|discriminate]. now injection F as ->. }
    rewrite Q.
    filing M. now destruct (unwrap_of (i, fld)).
  - destruct (optional (i, fld)); [discriminate|].
    destruct (fp && is_some vp) eqn:Fp; [discriminate|].
    destruct (fc && is_some vc) eqn:Fc; [discriminate|].
    injection H as <-. apply no_decode_nil in E.
    destruct fp, fc, vp, vc; cbn in Fp, Fc; try discriminate; filing M.
  - injection H as <-. apply no_decode_nil in E. filing M.
  - injection H as <-. apply no_decode_nil in E. filing M.
  - injection H as <-. apply no_decode_nil in E. filing M.
  - injection H as <-. filing M.
Qed.

Lemma lone_some {A} (o : option A) x l : lone o = x :: l -> o <> None.
Proof. now destruct o. Qed.

Lemma lone_keep {A} (o o' : option A) l : lone o' = lone o ++ l -> o <> None -> o' <> None.
Proof. destruct o; [|congruence]. intros H _. exact (lone_some o' a l H). Qed.

Lemma files_nil b : sb_emitted b = [] -> files b [] b.
Proof. intros E. split; cbn [flat_map]; rewrite ?app_nil_r; auto. Qed.

Lemma files_cons b x b1 xs b2 : files b [x] b1 -> files b1 xs b2 -> files b (x :: xs) b2.
Proof.
  intros F G. split;
    [apply F|rewrite (fs_ident _ _ _ G); apply F
    |rewrite (fs_spans _ _ _ G), (fs_spans _ _ _ F)
    |rewrite (fs_node_names _ _ _ G), (fs_node_names _ _ _ F)
    |rewrite (fs_type_names _ _ _ G), (fs_type_names _ _ _ F)
    |rewrite (fs_arguments _ _ _ G), (fs_arguments _ _ _ F)
    |rewrite (fs_var_args _ _ _ G), (fs_var_args _ _ _ F)
    |rewrite (fs_properties _ _ _ G), (fs_properties _ _ _ F)
    |rewrite (fs_var_props _ _ _ G), (fs_var_props _ _ _ F)
    |rewrite (fs_children _ _ _ G), (fs_children _ _ _ F)
    |rewrite (fs_var_children _ _ _ G), (fs_var_children _ _ _ F)
    |rewrite (fs_extra _ _ _ G), (fs_extra _ _ _ F)| | |];
    try (cbn [flat_map]; rewrite app_nil_r, <- app_assoc; reflexivity).
  - intros H. constructor.
    + apply (fs_no_args _ _ _ F) in H. now inversion H.
    + apply (fs_no_args _ _ _ G). exact (lone_keep _ _ _ (fs_var_args _ _ _ F) H).
  - intros H. constructor.
    + apply (fs_no_props _ _ _ F) in H. now inversion H.
    + apply (fs_no_props _ _ _ G). exact (lone_keep _ _ _ (fs_var_props _ _ _ F) H).
  - intros H. constructor.
    + apply (fs_no_children _ _ _ F) in H. now inversion H.
    + apply (fs_no_children _ _ _ G). exact (lone_keep _ _ _ (fs_var_children _ _ _ F) H).
Qed.

Lemma files_then b x b1 xs b2 : files b [x] b1 -> files b1 xs b2 ->
  Forall (fun z => after_all (mode_of x) (mode_of z)) xs.
Proof.
  intros F G. destruct (mode_of x) as [[|name| | |[name|]| |fc fp| | |]|] eqn:M;
    try (apply Forall_forall; intros; exact I).
  - apply (fs_no_args _ _ _ G). pose proof (fs_var_args _ _ _ F) as H.
    cbn [flat_map] in H. unfold var_args_of in H. rewrite M in H. intros E. rewrite E in H.
    destruct (sb_var_args b); discriminate.
  - apply (fs_no_props _ _ _ G). pose proof (fs_var_props _ _ _ F) as H.
    cbn [flat_map] in H. unfold var_props_of in H. rewrite M in H. intros E. rewrite E in H.
    destruct (sb_var_props b); discriminate.
  - apply (fs_no_children _ _ _ G). pose proof (fs_var_children _ _ _ F) as H.
    cbn [flat_map] in H. unfold var_children_of in H. rewrite M in H. intros E. rewrite E in H.
    destruct (sb_var_children b); discriminate.
Qed.

Lemma emit_all_emitted (b : builder Sp L) em : sb_emitted (emit_all b em) = sb_emitted b ++ em.
Proof. now destruct b. Qed.

Lemma emit_all_nil (b : builder Sp L) : emit_all b [] = b.
Proof. destruct b. cbn. now rewrite app_nil_r. Qed.

(** Messages are never taken back. *)
Lemma add_field_emitted b f o bo (a : field_attrs L) b' :
  add_field (Sp := Sp) kebab b f o bo a = inl b' -> sb_emitted b' = [] -> sb_emitted b = [].
Proof.
  intros H E. destruct b as [ident spans nn tn ar va p vp ch vc ex em].
  unfold add_field in H.
  repeat match type of H with
  | context [match fa_mode a with _ => _ end] => destruct (fa_mode a) as [[| | | |[|]| | | | |]|]
  | context [match ?x with _ => _ end] => destruct x
  end; try discriminate; injection H as <-; cbn in E |- *; try apply app_eq_nil in E; tauto.
Qed.

Lemma add_fields_emitted fs : forall b idx b',
  add_fields (Sp := Sp) (L := L) kebab b idx fs = inl b' -> sb_emitted b' = [] ->
  sb_emitted b = [].
Proof.
  induction fs as [|fld fs IH]; intros b idx b' H E; cbn [add_fields] in H.
  - now injection H as ->.
  - destruct (attrs_update (sf_attrs fld)) as [a em].
    destruct (add_field kebab (emit_all b em) _ _ _ a) as [b1|] eqn:A; [|discriminate].
    apply add_field_emitted in A; [|eapply IH; eauto].
    rewrite emit_all_emitted in A. now apply app_eq_nil in A.
Qed.

Lemma add_fields_files fs : forall b idx b',
  add_fields kebab b idx fs = inl b' -> sb_emitted b' = [] ->
  files b (combine (seq idx (List.length fs)) fs) b'
  /\ (forall pre y post, combine (seq idx (List.length fs)) fs = pre ++ y :: post ->
        Forall (fun z => after_all (mode_of y) (mode_of z)) post).
Proof.
  induction fs as [|fld fs IH]; intros b idx b' H E; cbn [add_fields] in H.
  - injection H as ->. cbn. split; [now apply files_nil|]. intros [|] y post; discriminate.
  - destruct (attrs_update (sf_attrs fld)) as [a em] eqn:U.
    destruct (add_field kebab (emit_all b em) _ _ _ a) as [b1|] eqn:A; [|discriminate].
    pose proof (add_fields_emitted _ _ _ _ H E) as E1.
    pose proof (add_field_emitted _ _ _ _ _ _ A E1) as E0.
    rewrite emit_all_emitted in E0. apply app_eq_nil in E0. destruct E0 as [E0 ->].
    rewrite emit_all_nil in A.
    apply (add_field_files b (idx, fld) a b1 U) in A; [|assumption].
    apply IH in H; [|assumption]. destruct H as [F O].
    cbn [List.length seq combine]. split; [eapply files_cons; eauto|].
    intros [|z pre] y post Q.
    + cbn in Q. injection Q as <- <-. eapply files_then; eauto.
    + cbn in Q. injection Q as <- Q. eapply O; eauto.
Qed.

Lemma struct_new_filed ident (fs : list (src_field Sp L)) s :
  struct_new kebab ident fs = inl (s, []) ->
  filed kebab ident fs s
  /\ (forall pre y post, numbered fs = pre ++ y :: post ->
        Forall (fun z => after_all (mode_of y) (mode_of z)) post).
Proof.
  unfold struct_new. destruct (add_fields kebab (builder_new ident) 0 fs) as [b|] eqn:A;
    [|discriminate].
  intros H. injection H as <- E. apply add_fields_files in A; [|assumption].
  destruct A as [F O]. split; [|exact O]. destruct F. now split.
Qed.

(** Each field is in the struct once. *)
Lemma flat_map_nil_all {A B} (f : A -> list B) l : Forall (fun x => f x = []) l -> flat_map f l = [].
Proof. induction 1; cbn; [reflexivity|]. now rewrite H. Qed.

Definition sorted_fields (s : list (nat * src_field Sp L)) : list (field Sp L) :=
  flat_map spans_of s ++ flat_map node_names_of s ++ map fst (flat_map type_names_of s)
  ++ map ar_field (flat_map arguments_of s)
  ++ map fst (flat_map var_args_of s)
  ++ map pr_field (flat_map (properties_of kebab) s)
  ++ map fst (flat_map var_props_of s)
  ++ map ch_field (flat_map (children_of kebab) s)
  ++ map fst (flat_map var_children_of s)
  ++ map fst (flat_map extra_of s).

Lemma lone_map {A B C} (o : option A) (f : A -> B) (l : list C) :
  match o with Some x => [f x] | None => [] end = map f (lone o).
Proof. now destruct o. Qed.

Lemma all_fields_sorted ident fs s : filed kebab ident fs s ->
  all_fields s = sorted_fields (numbered fs).
Proof.
  intros F. unfold all_fields, sorted_fields.
  rewrite <- (fi_var_args _ _ _ _ F), <- (fi_var_props _ _ _ _ F), <- (fi_var_children _ _ _ _ F).
  rewrite (fi_spans _ _ _ _ F), (fi_node_names _ _ _ _ F), (fi_type_names _ _ _ _ F),
    (fi_arguments _ _ _ _ F), (fi_properties _ _ _ _ F), (fi_children _ _ _ _ F),
    (fi_extra _ _ _ _ F).
  destruct (st_var_args s) as [[]|], (st_var_props s) as [[]|], (st_var_children s) as [[]|];
    reflexivity.
Qed.

Lemma sorted_fields_permutation xs : Forall one_way xs ->
  Permutation (sorted_fields xs) (map the_field xs).
Proof.
  induction 1 as [|x xs W H IH]; [constructor|].
  transitivity (the_field x :: sorted_fields xs); [|cbn [map]; now apply perm_skip].
  clear IH H. unfold sorted_fields. cbn [flat_map].
  unfold one_way in W.
  unfold spans_of at 1, node_names_of at 1, type_names_of at 1, arguments_of at 1,
    var_args_of at 1, properties_of at 1, var_props_of at 1, children_of at 1,
    var_children_of at 1, extra_of at 1.
  Local Ltac bring :=
    match goal with
    | |- Permutation (?a :: _) (?a :: _) => apply Permutation_refl
    | |- Permutation (?A ++ ?B) (?f :: ?A ++ ?B') =>
        apply Permutation_trans with (A ++ f :: B');
        [apply Permutation_app_head; bring | symmetry; apply Permutation_middle]
    end.
  destruct (mode_of x) as [[|name| | |[name|]| |[] []| | |]|]; try contradiction;
    cbn [app map fst ar_field pr_field ch_field]; bring.
Qed.

Lemma files_once ident (fs : list (src_field Sp L)) s :
  struct_new kebab ident fs = inl (s, []) -> Forall one_way (numbered fs) ->
  Permutation (all_fields s) (map the_field (numbered fs)).
Proof.
  intros H W. apply struct_new_filed in H. destruct H as [H _].
  rewrite (all_fields_sorted _ _ _ H). now apply sorted_fields_permutation.
Qed.

End Files.

(** ** The names of the fields are different *)

Section Names.
Context {Sp L : Type}.
Implicit Types fs : list (src_field Sp L).

Lemma attr_named fs idx : Forall (fun f => sf_name f <> None) fs ->
  map (fun x => f_attr (the_field x)) (combine (seq idx (List.length fs)) fs)
  = map (fun f => match sf_name f with Some n => Named n | None => Indexed 0 end) fs.
Proof.
  intros H. revert idx. induction H as [|f fs N H IH]; intros idx; [reflexivity|].
  cbn [List.length seq combine map]. rewrite IH. f_equal.
  unfold the_field. cbn [f_attr snd fst]. now destruct (sf_name f).
Qed.

Lemma attr_indexed fs idx : Forall (fun f => sf_name f = None) fs ->
  map (fun x => f_attr (the_field x)) (combine (seq idx (List.length fs)) fs)
  = map Indexed (seq idx (List.length fs)).
Proof.
  intros H. revert idx. induction H as [|f fs N H IH]; intros idx; [reflexivity|].
  cbn [List.length seq combine map]. rewrite IH. f_equal.
  unfold the_field. cbn [f_attr snd fst]. now rewrite N.
Qed.

Lemma NoDup_map_inj {A B} (f : A -> B) l : (forall a b, f a = f b -> a = b) ->
  NoDup l -> NoDup (map f l).
Proof.
  intros I. induction 1 as [|a l N H IH]; cbn; constructor; auto.
  intros F. apply in_map_iff in F. destruct F as (b & E & Hb). apply I in E. congruence.
Qed.

Lemma NoDup_names fs : names_given fs ->
  NoDup (map (fun x => f_attr (the_field x)) (numbered fs)).
Proof.
  intros [H D]. unfold numbered. rewrite attr_named by assumption.
  induction H as [|f fs N H IH]; cbn in *; [constructor|].
  apply NoDup_cons_iff in D. destruct D as [Nf D]. constructor; auto.
  intros F. apply in_map_iff in F. destruct F as (g & E & G). apply Nf.
  apply in_map_iff. exists g. split; [|assumption].
  rewrite Forall_forall in H. specialize (H g G).
  destruct (sf_name f), (sf_name g); congruence.
Qed.

Lemma NoDup_indexes fs : names_absent fs ->
  NoDup (map (fun x => f_attr (the_field x)) (numbered fs)).
Proof.
  intros H. unfold numbered. rewrite attr_indexed by assumption.
  apply NoDup_map_inj; [congruence|apply seq_NoDup].
Qed.

End Names.

(** ** Each value gets to its field *)

Lemma access_eqb_spec a b : access_eqb a b = true <-> a = b.
Proof.
  destruct a as [i|m], b as [j|n]; cbn; split; intros H; try discriminate.
  - now apply Nat.eqb_eq in H as ->.
  - injection H as ->. apply Nat.eqb_refl.
  - destruct (text_eqb_reflect m n); congruence.
  - injection H as ->. destruct (text_eqb_reflect n n); congruence.
Qed.

Lemma get_field_in {L} (fs : list (access * dval L)) a x :
  NoDup (map fst fs) -> get_field a fs = Some x <-> In (a, x) fs.
Proof.
  induction fs as [|[b y] fs IH]; cbn [get_field map fst]; intros D.
  - split; [discriminate|contradiction].
  - apply NoDup_cons_iff in D. destruct D as [N D].
    destruct (access_eqb a b) eqn:E.
    + apply access_eqb_spec in E. subst b. split.
      * intros H. injection H as ->. now left.
      * intros [H|H]; [now injection H as ->|]. exfalso. apply N.
        exact (in_map fst _ _ H).
    + rewrite IH by assumption. split; [now right|]. intros [H|H]; [|assumption].
      injection H as -> ->. rewrite (proj2 (access_eqb_spec a a) eq_refl) in E. discriminate.
Qed.

Lemma map_fst_combine {A B} (xs : list A) (ys : list B) : List.length xs = List.length ys ->
  map fst (combine xs ys) = xs.
Proof. revert ys. induction xs; intros [|]; cbn; intros; try discriminate; f_equal; auto. Qed.

Lemma nth_combine {A B} (xs : list A) (ys : list B) i x y :
  nth_error xs i = Some x -> nth_error ys i = Some y -> In (x, y) (combine xs ys).
Proof.
  revert ys i. induction xs as [|a xs IH]; intros [|b ys] [|i]; cbn; try discriminate.
  - intros H K. injection H as ->. injection K as ->. now left.
  - intros H K. right. eapply IH; eauto.
Qed.

Lemma insert_sorted_perm {A} (x : nat * A) l : Permutation (insert_sorted x l) (x :: l).
Proof.
  induction l as [|y l IH]; cbn; [constructor; constructor|].
  destruct (Nat.leb (fst x) (fst y)); [apply Permutation_refl|].
  transitivity (y :: x :: l); [now apply perm_skip|apply perm_swap].
Qed.

Lemma sort_perm {A} (l : list (nat * A)) : Permutation (sort_by_index l) l.
Proof.
  induction l as [|x l IH]; [constructor|]. change (sort_by_index (x :: l)) with
    (insert_sorted x (sort_by_index l)).
  rewrite insert_sorted_perm. now apply perm_skip.
Qed.

(** The sorted indexes do not depend on what is attached to them. *)
Fixpoint insert_nat (x : nat) (l : list nat) : list nat :=
  match l with
  | [] => [x]
  | y :: l' => if Nat.leb x y then x :: l else y :: insert_nat x l'
  end.

Lemma insert_fst {A} (x : nat * A) l : map fst (insert_sorted x l) = insert_nat (fst x) (map fst l).
Proof.
  induction l as [|y l IH]; cbn; [reflexivity|].
  destruct (Nat.leb (fst x) (fst y)); cbn; congruence.
Qed.

Lemma sort_fst {A} (l : list (nat * A)) :
  map fst (sort_by_index l) = fold_right insert_nat [] (map fst l).
Proof.
  induction l as [|x l IH]; [reflexivity|]. cbn [map fold_right].
  rewrite <- IH. change (sort_by_index (x :: l)) with (insert_sorted x (sort_by_index l)).
  apply insert_fst.
Qed.

Section Value.
Context {Sp L : Type}.
Implicit Types (s : struct Sp L) (f : field Sp L) (x : dval L).

Lemma tuple_values_fields s xs : tuple_ok s = true ->
  List.length xs = List.length (all_fields s) ->
  let ys := tuple_values s xs in
  Permutation (combine (map Indexed (seq 0 (List.length ys))) ys)
    (combine (map (fun f => Indexed (as_index f)) (all_fields s)) xs).
Proof.
  intros T Len. cbn zeta.
  unfold tuple_ok in T. destruct (list_eq_dec _ _ _) as [E|]; [|discriminate]. clear T.
  rewrite sort_fst, map_map in E. cbn [fst] in E.
  unfold tuple_values. set (l := sort_by_index (combine (map as_index (all_fields s)) xs)).
  assert (F : map fst l = seq 0 (List.length l)).
  { unfold l. rewrite sort_fst, map_fst_combine by (rewrite map_length; auto).
    etransitivity; [exact E|]. f_equal.
    rewrite (Permutation_length (sort_perm (map (fun f => (as_index f, tt)) (all_fields s)))).
    rewrite (Permutation_length (sort_perm (combine (map as_index (all_fields s)) xs))).
    rewrite combine_length, !map_length. lia. }
  rewrite map_length, <- F.
  assert (G : combine (map Indexed (map fst l)) (map snd l)
    = map (fun p => (Indexed (fst p), snd p)) l).
  { clear. induction l; cbn; congruence. }
  rewrite G. unfold l. rewrite sort_perm.
  clear. revert xs. induction (all_fields s) as [|f fs IH]; intros [|x xs]; cbn; auto.
Qed.

Lemma holds_nth named s xs i f x :
  (named = true \/ (tuple_ok s = true /\ Forall (fun f => f_attr f = Indexed (as_index f)) (all_fields s))) ->
  NoDup (map f_attr (all_fields s)) ->
  List.length xs = List.length (all_fields s) ->
  nth_error (all_fields s) i = Some f -> nth_error xs i = Some x ->
  holds (struct_val named s xs) f x.
Proof.
  intros K D Len Hf Hx. unfold struct_val, holds.
  assert (Hc : In (f_attr f, x) (combine (map f_attr (all_fields s)) xs)).
  { eapply nth_combine; [|eassumption]. now apply map_nth_error. }
  destruct K as [->|[T A]].
  - apply get_field_in; [|assumption].
    rewrite map_fst_combine by (rewrite map_length; auto). assumption.
  - destruct named.
    + apply get_field_in; [|assumption].
      rewrite map_fst_combine by (rewrite map_length; auto). assumption.
    + pose proof (tuple_values_fields s xs T Len) as P. cbn zeta in P |- *.
      assert (E : map (fun f => Indexed (as_index f)) (all_fields s) = map f_attr (all_fields s)).
      { clear -A. induction A; cbn; congruence. }
      rewrite E in P. apply get_field_in.
      * apply (Permutation_map fst) in P. apply Permutation_sym in P.
        apply (Permutation_NoDup P). rewrite map_fst_combine by (rewrite map_length; auto).
        assumption.
      * apply Permutation_sym in P. now apply (Permutation_in _ P).
Qed.

End Value.
