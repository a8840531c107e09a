(** The derive accepts what AcceptSpec.v says. *)

From Coq Require Import NArith List Bool String Lia Arith Permutation.
From Verif Require Import Chars Ast Errors Decode Scalar DeriveDef Derive LexIdent ScalarProps FieldSpec
  StructSpec FieldProps StructProps AcceptSpec.
Import ListNotations.

(** ** Attributes *)

Lemma fold_emitted {L} (attrs : list (attr L)) : forall m d u df em,
  snd (fold_left update_attr attrs (FieldAttrs m d u df, em)) = [] <->
  em = []
  /\ at_most_one (lone m ++ picks mode_attr attrs)
  /\ at_most_one (lone d ++ picks decode_attr attrs)
  /\ at_most_one (lone u ++ picks unwrap_attr attrs)
  /\ at_most_one (lone df ++ picks default_attr attrs)
  /\ ~ In ASkip attrs /\ ~ In ASpanType attrs.
Proof.
  unfold at_most_one.
  induction attrs as [|x attrs IH]; intros m d u df em.
  - cbn. rewrite !app_nil_r.
    assert (K : forall A (o : option A), List.length (lone o) <= 1)
      by (intros A [|]; cbn; lia).
    split; [intros ->; repeat split; auto|tauto].
  - cbn [fold_left]. destruct x as [|dm|fm|uw|dv|]; cbn [update_attr]; rewrite IH;
      cbn [picks flat_map mode_attr decode_attr unwrap_attr default_attr app];
      fold (picks (A := attr L) mode_attr) (picks (A := attr L) decode_attr)
           (picks (A := attr L) unwrap_attr) (picks (A := attr L) default_attr).
    + split; [intros [K _]; now destruct em|]. intros (_ & _ & _ & _ & _ & K & _).
      exfalso. apply K. now left.
    + destruct d; cbn [lone app is_some List.length].
      * split; [intros [K _]; now destruct em|]. intros (_ & _ & K & _). lia.
      * rewrite app_nil_r. cbn [In]. intuition discriminate.
    + destruct m; cbn [lone app is_some List.length].
      * split; [intros [K _]; now destruct em|]. intros (_ & K & _). lia.
      * rewrite app_nil_r. cbn [In]. intuition discriminate.
    + destruct u; cbn [lone app is_some List.length].
      * split; [intros [K _]; now destruct em|]. intros (_ & _ & _ & K & _). lia.
      * rewrite app_nil_r. cbn [In]. intuition discriminate.
    + destruct df; cbn [lone app is_some List.length].
      * split; [intros [K _]; now destruct em|]. intros (_ & _ & _ & _ & K & _). lia.
      * rewrite app_nil_r. cbn [In]. intuition discriminate.
    + split; [intros [K _]; now destruct em|]. intros (_ & _ & _ & _ & _ & _ & K).
      exfalso. apply K. now left.
Qed.

Lemma attrs_emitted {L} (attrs : list (attr L)) :
  snd (attrs_update attrs) = [] <-> attrs_allowed attrs.
Proof.
  unfold attrs_update, attrs_allowed, attrs_new. rewrite fold_emitted. cbn [lone app]. tauto.
Qed.

Lemma picks_decode {L} (attrs : list (attr L)) :
  picks decode_attr attrs = [] <-> ~ exists m, In (ADecodeMode m) attrs.
Proof.
  induction attrs as [|a attrs IH].
  - cbn. split; [intros _ [m []]|reflexivity].
  - split.
    + intros E [m [->|I]]; [discriminate|]. cbn in E. apply app_eq_nil in E.
      destruct E as [_ E]. apply IH in E. apply E. now exists m.
    + intros H. cbn. destruct a as [|dm|fm|uw|dv|]; cbn [decode_attr app];
        try (apply IH; intros [m I]; apply H; exists m; now right).
      exfalso. apply H. exists dm. now left.
Qed.

Lemma decode_absent {Sp L} (x : nat * src_field Sp L) a :
  attrs_update (sf_attrs (snd x)) = (a, []) -> (fa_decode a = None <-> no_decoding x).
Proof.
  intros U. apply attrs_fold in U; [|reflexivity]. destruct U as (_ & _ & D & _).
  unfold no_decoding. rewrite <- picks_decode. cbn [lone app] in D. rewrite <- D.
  destruct (fa_decode a); cbn; split; congruence.
Qed.

(** ** Fields *)

Section Fields.
Context {Sp L : Type} (kebab : text -> text).
Implicit Types (x : nat * src_field Sp L) (b : builder Sp L) (fs : list (src_field Sp L)).

(** What [add_field] checks of a field on its own. *)
Definition mode_ok x : Prop :=
  match mode_of x with
  | None | Some (FmArgument | FmArguments | FmProperties) => True
  | Some (FmProperty name) => name <> None \/ has_name x
  | Some FmChild => has_name x /\ no_decoding x
  | Some (FmChildren _) => no_decoding x
  | Some (FmFlatten _ _) => optional x = false /\ no_decoding x
  | Some (FmSpan | FmNodeName | FmTypeName) => no_decoding x
  end.

(** And of what comes before. *)
Definition rest_free b x : Prop :=
  (sb_var_args b <> None -> after_all (Some FmArguments) (mode_of x))
  /\ (sb_var_props b <> None -> after_all (Some FmProperties) (mode_of x))
  /\ (sb_var_children b <> None -> after_all (Some (FmChildren None)) (mode_of x)).

Definition adds b x a : Prop :=
  exists b', add_field kebab b (the_field x) (optional x) (boolean x) a = inl b'
    /\ sb_emitted b' = [].

Lemma no_decode_iff (a : field_attrs L) e : no_decode a e = [] <-> fa_decode a = None.
Proof. unfold no_decode. destruct (fa_decode a); split; congruence. Qed.

Lemma adds_inl b' : (exists b'', inl b' = (inl b'' : syn_result (builder Sp L)) /\ sb_emitted b'' = [])
  <-> sb_emitted b' = [].
Proof.
  split; [intros (b'' & E & H); now injection E as ->|intros H; now exists b'].
Qed.

Lemma adds_inr m : (exists b'', inr m = (inl b'' : syn_result (builder Sp L)) /\ sb_emitted b'' = [])
  <-> False.
Proof. split; [intros (b'' & E & H); discriminate|tauto]. Qed.

Lemma adds_iff b x a : attrs_update (sf_attrs (snd x)) = (a, []) -> sb_emitted b = [] ->
  adds b x a <-> mode_ok x /\ rest_free b x.
Proof.
  intros U E. pose proof (decode_absent x a U) as D. destruct x as [i fld]. cbn [snd] in U.
  apply (attrs_update_ok i) in U. destruct U as (A1 & _).
  destruct b as [ident spans nn tn ar va p vp ch vc ex em]. cbn [sb_emitted] in E. subst em.
  unfold adds, add_field, mode_ok, rest_free. rewrite A1. clear A1.
  cbn [sb_var_args sb_var_props sb_var_children].
  assert (HN : has_name (i, fld) <-> exists n, f_attr (the_field (i, fld)) = Named n).
  { unfold has_name, the_field. cbn [snd f_attr].
    destruct (sf_name fld) as [n|]; split; try congruence; [intros _; now exists n|].
    intros [n K]; discriminate. }
  Local Ltac flags :=
    rewrite ?adds_inl, ?adds_inr; cbn [sb_emitted app]; rewrite ?no_decode_iff;
    cbn [after_all]; intuition congruence.
  destruct (mode_of (i, fld)) as [[|name| | |[name|]| |fc fp| | |]|] eqn:M.
  - destruct va; flags.
  - destruct vp; [flags|].
    destruct name as [n|]; [flags|].
    destruct (f_attr (the_field (i, fld))) as [k|k].
    + rewrite adds_inr. cbn [after_all]. split; [tauto|]. intros [[K|K] _]; [congruence|].
      apply HN in K. destruct K as [n K]. discriminate.
    + rewrite adds_inl. cbn [sb_emitted after_all]. split; [|reflexivity].
      intros _. split; [|tauto]. right. apply HN. now exists k.
  - destruct va; flags.
  - destruct vp; flags.
  - destruct vc; flags.
  - destruct vc; flags.
  - destruct vc; [flags|]. destruct (f_attr (the_field (i, fld))) as [k|k].
    + rewrite adds_inr. cbn [after_all]. split; [tauto|]. intros [[K _] _].
      apply HN in K. destruct K as [n K]. discriminate.
    + rewrite adds_inl. cbn [sb_emitted app after_all]. rewrite no_decode_iff, D.
      split; [|tauto]. intros K. split; [|tauto]. split; [|exact K]. apply HN. now exists k.
  - destruct (optional (i, fld)); [flags|].
    destruct fp, fc, vp, vc; cbn [andb is_some]; flags.
  - flags.
  - flags.
  - flags.
  - flags.
Qed.

(** The tables that take the rest. *)
Lemma rest_after b x b1 : files kebab b [x] b1 -> forall z,
  rest_free b1 z <-> rest_free b z /\ after_all (mode_of x) (mode_of z).
Proof.
  intros F z. unfold rest_free.
  pose proof (fs_var_args _ _ _ _ F) as A. pose proof (fs_var_props _ _ _ _ F) as P.
  pose proof (fs_var_children _ _ _ _ F) as C. cbn [flat_map] in A, P, C.
  rewrite app_nil_r in A, P, C. unfold var_args_of in A. unfold var_props_of in P.
  unfold var_children_of in C.
  assert (N : forall T (o o' : option T), lone o' = lone o ++ [] -> (o' <> None <-> o <> None)).
  { intros T o o' K. rewrite app_nil_r in K. destruct o, o'; try discriminate; split; congruence. }
  assert (Y : forall T (o o' : option T) y, lone o' = lone o ++ [y] -> o' <> None).
  { intros T o o' y K ->. destruct o; discriminate. }
  destruct (mode_of x) as [[|name| | |[name|]| |fc fp| | |]|];
    try (rewrite (N _ _ _ A), (N _ _ _ P), (N _ _ _ C); cbn [after_all]; tauto).
  - rewrite (N _ _ _ P), (N _ _ _ C). pose proof (Y _ _ _ _ A) as K. cbn [after_all]. tauto.
  - rewrite (N _ _ _ A), (N _ _ _ C). pose proof (Y _ _ _ _ P) as K. cbn [after_all]. tauto.
  - rewrite (N _ _ _ A), (N _ _ _ P). pose proof (Y _ _ _ _ C) as K. cbn [after_all]. tauto.
Qed.

Definition alone_ok x : Prop := attrs_allowed (sf_attrs (snd x)) /\ mode_ok x.

Lemma add_fields_iff fs : forall b idx, sb_emitted b = [] ->
  (exists b', add_fields kebab b idx fs = inl b' /\ sb_emitted b' = [])
  <-> Forall alone_ok (combine (seq idx (List.length fs)) fs)
      /\ ForallOrdPairs (fun x y => after_all (mode_of x) (mode_of y))
           (combine (seq idx (List.length fs)) fs)
      /\ Forall (rest_free b) (combine (seq idx (List.length fs)) fs).
Proof.
  induction fs as [|fld fs IH]; intros b idx E; cbn [add_fields List.length seq combine].
  - rewrite adds_inl. split; [|tauto]. intros _. repeat split; constructor.
  - destruct (attrs_update (sf_attrs fld)) as [a em] eqn:U.
    pose proof (attrs_emitted (sf_attrs fld)) as AE. rewrite U in AE. cbn [snd] in AE.
    pose proof (adds_iff b (idx, fld) a) as AI. cbn [snd] in AI.
    assert (Len : forall X Y Z : Prop, (X <-> Y) -> (Z <-> Y) -> (X <-> Z)) by tauto.
    clear Len.
    change (Field match sf_name fld with Some n => Named n | None => Indexed idx end (sf_impl fld))
      with (the_field (idx, fld)).
    change (is_option (sf_type fld)) with (optional (idx, fld)).
    change (is_bool (sf_type fld)) with (boolean (idx, fld)).
    split.
    + intros (b' & H & E').
      destruct (add_field kebab (emit_all b em) _ _ _ a) as [b1|] eqn:A; [|discriminate].
      pose proof (add_fields_emitted _ _ _ _ _ H E') as E1.
      pose proof (add_field_emitted _ _ _ _ _ _ _ A E1) as E0.
      rewrite emit_all_emitted in E0. apply app_eq_nil in E0. destruct E0 as [_ ->].
      rewrite emit_all_nil in A. specialize (AI U E).
      assert (K : adds b (idx, fld) a) by (exists b1; auto). apply AI in K.
      pose proof (add_field_files kebab b (idx, fld) a b1 U A E1) as F.
      assert (Q : exists b', add_fields kebab b1 (S idx) fs = inl b' /\ sb_emitted b' = [])
        by (exists b'; auto).
      apply (IH b1 (S idx) E1) in Q. destruct Q as (Q1 & Q2 & Q3).
      split; [|split].
      * constructor; [|exact Q1]. split; [now apply AE|apply K].
      * constructor; [|exact Q2]. revert Q3. apply Forall_impl. intros z Z.
        apply (rest_after _ _ _ F) in Z. apply Z.
      * constructor; [apply K|]. revert Q3. apply Forall_impl. intros z Z.
        apply (rest_after _ _ _ F) in Z. apply Z.
    + intros (Q1 & Q2 & Q3).
      inversion Q1 as [|x1 l1 [Ha Hm] Q1' Ex1]; subst. inversion Q2 as [|x2 l2 Hp Q2' Ex2]; subst.
      inversion Q3 as [|x3 l3 Hr Q3' Ex3]; subst. cbn [snd] in Ha. apply AE in Ha. subst em.
      rewrite emit_all_nil. specialize (AI U E).
      assert (K : adds b (idx, fld) a) by (apply AI; auto).
      destruct K as (b1 & A & E1). rewrite A.
      pose proof (add_field_files kebab b (idx, fld) a b1 U A E1) as F.
      apply (IH b1 (S idx) E1). split; [exact Q1'|]. split; [exact Q2'|].
      apply Forall_forall. intros z Z. apply (rest_after _ _ _ F).
      rewrite Forall_forall in Hp, Q3'. auto.
Qed.

Lemma struct_new_iff ident fs :
  (exists s, struct_new kebab ident fs = inl (s, []))
  <-> Forall alone_ok (numbered fs)
      /\ ForallOrdPairs (fun x y => after_all (mode_of x) (mode_of y)) (numbered fs).
Proof.
  unfold struct_new, numbered.
  pose proof (add_fields_iff fs (builder_new ident) 0 eq_refl) as H.
  assert (R : Forall (rest_free (builder_new ident)) (combine (seq 0 (List.length fs)) fs)).
  { apply Forall_forall. intros z _. unfold rest_free, builder_new. cbn. tauto. }
  transitivity (exists b', add_fields kebab (builder_new (L := L) (Sp := Sp) ident) 0 fs = inl b'
                 /\ sb_emitted b' = []); [|rewrite H; tauto].
  destruct (add_fields kebab (builder_new ident) 0 fs) as [b|].
  - rewrite adds_inl. split; [intros [s K]; congruence|]. intros ->. now exists (build b).
  - rewrite adds_inr. split; [intros [s K]; discriminate|tauto].
Qed.

(** ** [unwrap] *)

Lemma unwrap_compiles_iff name (i : tyimpl Sp L) : forall u : field_attrs L,
  unwrap_compiles kebab name i u = true <-> unwrap_allowed u.
Proof.
  fix IH 1. intros [mode decode unwrap default]. cbn [unwrap_compiles unwrap_allowed].
  assert (N : match unwrap with Some u => unwrap_compiles kebab name i u | None => true end = true
    <-> match unwrap with Some u' => unwrap_allowed u' | None => True end).
  { destruct unwrap as [u|]; [apply IH|]. split; auto. }
  clear IH. unfold add_field, builder_new, new_named. cbn [fa_mode fa_decode fa_unwrap fa_default f_attr].
  destruct mode as [[|nm| | |[nm|]| |fc fp| | |]|].
  all: try (cbn; split; [discriminate|contradiction] || (split; [reflexivity|auto]); fail).
  - destruct nm; cbn; split; auto.
  - unfold no_decode. cbn [fa_decode]. destruct decode; cbn; [intuition discriminate|].
    rewrite orb_false_r. destruct unwrap; cbn; rewrite ?N; intuition.
  - unfold no_decode. cbn [fa_decode]. destruct decode; cbn; [intuition discriminate|].
    destruct unwrap; cbn; rewrite ?N; intuition.
  - unfold no_decode. cbn [fa_decode]. destruct decode; cbn; [intuition discriminate|].
    rewrite orb_false_r. destruct unwrap; cbn; rewrite ?N; intuition.
  - unfold no_decode. cbn [fa_decode]. destruct fc, fp, decode; cbn; intuition discriminate.
  - unfold no_decode. cbn [fa_decode]. destruct decode; cbn; intuition discriminate.
  - unfold no_decode. cbn [fa_decode]. destruct decode; cbn; intuition discriminate.
  - unfold no_decode. cbn [fa_decode]. destruct decode; cbn; intuition discriminate.
Qed.

Definition unwraps_ok x : Prop :=
  match mode_of x with
  | Some (FmChild | FmChildren _) => unwrapping (unwrap_of x)
  | _ => True
  end.

Lemma unwraps_compile_iff ident fs s : filed kebab ident fs s ->
  unwraps_compile kebab s = true <-> Forall unwraps_ok (numbered fs).
Proof.
  intros F. unfold unwraps_compile. rewrite andb_true_iff, forallb_forall.
  rewrite (fi_children _ _ _ _ F). pose proof (fi_var_children _ _ _ _ F) as V.
  assert (K : forall (f : field Sp L) u,
    match u with Some u' => unwrap_compiles kebab (tmp_name (f_attr f)) (f_impl f) u' | None => true end
    = true <-> unwrapping u).
  { intros f [u|]; cbn [unwrapping]; [apply unwrap_compiles_iff|]. split; auto. }
  assert (W : (match st_var_children s with
     | Some (f, u) => match u with
         | Some u' => unwrap_compiles kebab (tmp_name (f_attr f)) (f_impl f) u'
         | None => true end
     | None => true end = true)
     <-> forall fu, In fu (flat_map var_children_of (numbered fs)) -> unwrapping (snd fu)).
  { rewrite <- V. destruct (st_var_children s) as [[f u]|]; cbn [lone].
    - rewrite K. split; [intros H fu [<-|[]]; exact H|]. intros H. apply (H (f, u)). now left.
    - split; auto. intros _ fu []. }
  rewrite W. clear V W. rewrite Forall_forall. split.
  - intros [H1 H2] x X. unfold unwraps_ok.
    assert (C : forall d, In d (children_of kebab x) -> unwrapping (ch_unwrap d)).
    { intros d D. apply (K (ch_field d)). apply H1. apply in_flat_map. now exists x. }
    assert (V : forall fu, In fu (var_children_of x) -> unwrapping (snd fu)).
    { intros fu D. apply H2. apply in_flat_map. now exists x. }
    unfold children_of in C. unfold var_children_of in V.
    destruct (mode_of x) as [[| | | |[|]| | | | |]|]; try exact I.
    + apply (C _ (or_introl eq_refl)).
    + apply (V _ (or_introl eq_refl)).
    + apply (C _ (or_introl eq_refl)).
  - intros H. split.
    + intros d D. apply K. apply in_flat_map in D. destruct D as (x & X & D).
      specialize (H x X). unfold unwraps_ok in H. unfold children_of in D.
      destruct (mode_of x) as [[| | | |[|]| |[|] [|]| | |]|]; cbn [In] in D;
        intuition; subst d; cbn [ch_unwrap]; auto; exact I.
    + intros fu D. apply in_flat_map in D. destruct D as (x & X & D).
      specialize (H x X). unfold unwraps_ok in H. unfold var_children_of in D.
      destruct (mode_of x) as [[| | | |[|]| | | | |]|]; cbn [In] in D; intuition; now subst fu.
Qed.

Lemma field_allowed_iff x : field_allowed x <-> alone_ok x /\ unwraps_ok x.
Proof.
  unfold field_allowed, alone_ok, mode_ok, unwraps_ok.
  destruct (mode_of x) as [[| | | | | | | | |]|]; tauto.
Qed.

Lemma Forall_and_iff {A} (P Q : A -> Prop) l : Forall (fun a => P a /\ Q a) l <-> Forall P l /\ Forall Q l.
Proof. rewrite !Forall_forall. firstorder. Qed.

Lemma Forall_iff {A} (P Q : A -> Prop) l : (forall a, P a <-> Q a) -> Forall P l <-> Forall Q l.
Proof. intros H. rewrite !Forall_forall. firstorder. Qed.

Lemma fields_allowed_iff ident fs :
  (exists s, struct_new kebab ident fs = inl (s, []) /\ unwraps_compile kebab s = true)
  <-> fields_allowed fs.
Proof.
  unfold fields_allowed. rewrite (Forall_iff _ _ _ field_allowed_iff), Forall_and_iff.
  pose proof (struct_new_iff ident fs) as N. split.
  - intros (s & S & U).
    assert (X : exists s, struct_new kebab ident fs = inl (s, [])) by (now exists s).
    apply N in X. destruct X as [X1 X2].
    pose proof (proj1 (struct_new_filed kebab ident fs s S)) as F.
    apply (unwraps_compile_iff _ _ _ F) in U. auto.
  - intros [[X1 X2] X3]. destruct (proj2 N (conj X1 X3)) as [s S]. exists s. split; [exact S|].
    pose proof (proj1 (struct_new_filed kebab ident fs s S)) as F.
    now apply (unwraps_compile_iff _ _ _ F).
Qed.

Lemma container_iff (cont : list (attr L)) : container_emitted cont = [] <-> Forall (eq ASpanType) cont.
Proof.
  unfold container_emitted. induction cont as [|a cont IH].
  - split; [constructor|reflexivity].
  - cbn [flat_map]. rewrite Forall_cons_iff, <- IH.
    destruct a; cbn [app]; split; try discriminate; try (intros [K _]; discriminate); tauto.
Qed.

Lemma variant_emitted_iff (attrs : list (attr L)) : variant_emitted attrs = [] <-> Forall (eq ASkip) attrs.
Proof.
  unfold variant_emitted. induction attrs as [|a attrs IH].
  - split; [constructor|reflexivity].
  - cbn [flat_map]. rewrite Forall_cons_iff, <- IH.
    destruct a; cbn [app]; split; try discriminate; try (intros [K _]; discriminate); tauto.
Qed.

Lemma variant_skip_iff (v : src_variant Sp L) : variant_skip (sv_attrs v) = true <-> skipped v.
Proof.
  unfold variant_skip, skipped. rewrite existsb_exists. split.
  - intros (a & I & E). now destruct a.
  - intros I. exists ASkip. auto.
Qed.

(** A tuple. *)
Lemma lone_unwraps ident fs s e : struct_new kebab ident fs = inl (s, []) -> tuple_proper fs ->
  lone_extra s = Some e -> unwraps_compile kebab s = true /\ no_specials s = true.
Proof.
  intros S P E. unfold lone_extra in E.
  destruct (all_fields s) as [|f [|]] eqn:A; try discriminate.
  destruct (st_extra s) as [|y [|]] eqn:X; try discriminate.
  unfold all_fields in A. rewrite X in A. cbn [map] in A.
  unfold unwraps_compile, no_specials.
  Local Ltac more A := cbn in A; injection A as _ A;
    repeat (apply app_eq_nil in A; destruct A as [_ A]); discriminate.
  destruct (st_spans s); [|more A].
  destruct (st_node_names s); [|more A].
  destruct (st_type_names s); [|more A].
  destruct (st_arguments s); [|more A].
  destruct (st_var_args s) as [[]|]; [more A|].
  destruct (st_properties s); [|more A].
  destruct (st_var_props s) as [[]|]; [more A|].
  destruct (st_children s); [|more A].
  destruct (st_var_children s) as [[]|]; [discriminate|].
  split; reflexivity.
Qed.

Lemma specials_iff ident fs s : filed kebab ident fs s ->
  no_specials s = true <-> Forall (fun x => ~ special x) (numbered fs).
Proof.
  intros F. unfold no_specials.
  rewrite (fi_spans _ _ _ _ F), (fi_node_names _ _ _ _ F), (fi_type_names _ _ _ _ F).
  induction (numbered fs) as [|x l IH]; [split; [constructor|reflexivity]|].
  rewrite Forall_cons_iff, <- IH. cbn [flat_map].
  unfold spans_of at 1, node_names_of at 1, type_names_of at 1, special.
  destruct (mode_of x) as [[| | | | | | | | |]|]; cbn [app is_nil andb]; rewrite ?andb_false_r;
    intuition discriminate.
Qed.

Lemma emit_iff named (s : struct Sp L) : (exists d, emit_struct kebab named s = Some d)
  <-> (named || tuple_ok s) && unwraps_compile kebab s = true.
Proof.
  unfold emit_struct. destruct ((named || tuple_ok s) && unwraps_compile kebab s).
  - split; [reflexivity|]. intros _. eexists. reflexivity.
  - split; [intros [d K]; discriminate|discriminate].
Qed.

Definition some {A : Type} (o : option A) : Prop := exists a, o = Some a.

(** ** Structs *)

Lemma struct_accepted ident cont fields : fields_proper fields ->
  some (decode_derive kebab (SrcStruct (Sp := Sp) (L := L) ident cont fields))
  <-> item_allowed (SrcStruct (Sp := Sp) (L := L) ident cont fields).
Proof.
  intros P. cbn [item_allowed]. rewrite <- container_iff. unfold some, decode_derive, definition_parse.
  destruct fields as [fs|fs|]; cbn [fields_proper] in P.
  - rewrite <- (fields_allowed_iff ident fs).
    destruct (struct_new kebab ident fs) as [[s em]|].
    2: { split; [intros [d K]; discriminate|intros (_ & s & K & _); discriminate]. }
    destruct (container_emitted cont) as [|m l]; cbn [app].
    2: { split; [intros [d K]; discriminate|intros [K _]; discriminate]. }
    destruct em as [|m l].
    2: { split; [intros [d K]; discriminate|intros (_ & s' & K & _); discriminate]. }
    cbn [emit_decoder]. rewrite emit_iff. cbn [orb andb]. split.
    + intros U. split; [reflexivity|]. now exists s.
    + intros (_ & s' & K & U). injection K as ->. exact U.
  - rewrite <- (fields_allowed_iff ident fs).
    destruct (struct_new kebab ident fs) as [[s em]|] eqn:S.
    2: { split; [intros [d K]; discriminate|intros (_ & s & K & _); discriminate]. }
    destruct (container_emitted cont) as [|m l]; cbn [app].
    2: { split; [intros [d K]; discriminate|intros [K _]; discriminate]. }
    destruct em as [|m l].
    2: { split; [intros [d K]; discriminate|intros (_ & s' & K & _); discriminate]. }
    destruct (lone_extra s) as [[f o]|] eqn:E.
    + cbn [emit_decoder]. split; [|intros _; eexists; reflexivity]. intros _.
      split; [reflexivity|]. exists s. split; [reflexivity|].
      apply (lone_unwraps _ _ _ _ S P E).
    + cbn [emit_decoder]. rewrite emit_iff. destruct P as [P1 P2].
      rewrite (proj1 (proper_tuple kebab ident fs s S (conj P1 P2))). cbn [orb andb]. split.
      * intros U. split; [reflexivity|]. now exists s.
      * intros (_ & s' & K & U). injection K as ->. exact U.
  - cbn [struct_new add_fields builder_new build sb_emitted]. unfold struct_new. cbn [add_fields].
    destruct (container_emitted cont) as [|m l]; cbn.
    2: { split; [intros [d K]; discriminate|intros [K _]; discriminate]. }
    split; [auto|]. intros _. eexists. reflexivity.
Qed.

(** ** Enums *)

Lemma variant_accepted e (v : src_variant Sp L) : fields_proper (sv_fields v) -> ~ skipped v ->
  (exists y f, variant_new kebab v = inl (y, []) /\ variant_node kebab e y = Some f)
  <-> match sv_fields v with
      | FUnit => True
      | FUnnamed fs => fields_allowed fs /\ Forall (fun x => ~ special x) (numbered fs)
      | FNamed _ => False
      end.
Proof.
  intros P _. unfold variant_new. destruct (sv_fields v) as [fs|fs|]; cbn [fields_proper] in P.
  - destruct (struct_new kebab (sv_ident v) fs) as [[s em]|];
      (split; [|tauto]); intros (x & f & E & K); [|discriminate].
    injection E as <- _. discriminate.
  - rewrite <- (fields_allowed_iff (sv_ident v) fs).
    destruct (struct_new kebab (sv_ident v) fs) as [[s em]|] eqn:S.
    2: { split; [intros (x & f & K & _); discriminate|intros ((s & K & _) & _); discriminate]. }
    destruct em as [|m l].
    2: { split; [intros (x & f & K & _); discriminate|intros ((s' & K & _) & _); discriminate]. }
    pose proof (proj1 (struct_new_filed kebab _ fs s S)) as F.
    rewrite <- (specials_iff _ _ _ F).
    destruct (lone_extra s) as [[f o]|] eqn:E.
    + destruct (lone_unwraps _ _ _ _ S P E) as [U N]. split.
      * intros _. split; [|exact N]. now exists s.
      * intros _. destruct o; do 2 eexists; (split; [reflexivity|]); reflexivity.
    + destruct P as [P1 P2]. pose proof (proj1 (proper_tuple kebab _ fs s S (conj P1 P2))) as T.
      split.
      * intros (x & f & K & V). injection K as <-. unfold variant_node in V. cbn [va_kind] in V.
        rewrite T in V. destruct (no_specials s) eqn:N; [|discriminate].
        destruct (unwraps_compile kebab s) eqn:U; [|discriminate]. split; [|reflexivity].
        now exists s.
      * intros ((s' & K & U) & N). injection K as <-.
        do 2 eexists. split; [reflexivity|]. unfold variant_node. cbn [va_kind].
        rewrite N, T, U. reflexivity.
  - split; [auto|]. intros _. do 2 eexists. split; reflexivity.
Qed.

Lemma enum_accepted_list e (vs : list (src_variant Sp L)) :
  Forall (fun v => fields_proper (sv_fields v)) vs ->
  (exists l bs, enum_new kebab vs = inl (l, []) /\ variant_branches kebab e l = Some bs)
  <-> Forall variant_allowed vs.
Proof.
  induction 1 as [|v vs P H IH].
  - split; [constructor|]. intros _. do 2 eexists. split; reflexivity.
  - rewrite Forall_cons_iff, <- IH. clear IH. unfold variant_allowed.
    rewrite <- variant_emitted_iff. cbn [enum_new].
    destruct (variant_skip (sv_attrs v)) eqn:K.
    + apply variant_skip_iff in K.
      destruct (enum_new kebab vs) as [[l em]|].
      2: { split; [intros (l & bs & E & _); discriminate|intros (_ & l & bs & E & _); discriminate]. }
      destruct (variant_emitted (sv_attrs v)) as [|m r]; cbn [app].
      * split; [intros X; split; [tauto|exact X]|intros [_ X]; exact X].
      * split; [intros (l' & bs & E & _); discriminate|intros ((E & _) & _); discriminate].
    + assert (NK : ~ skipped v) by (rewrite <- variant_skip_iff; congruence).
      rewrite <- (variant_accepted e v P NK).
      destruct (variant_new kebab v) as [[x em]|].
      2: { split; [intros (l & bs & E & _); discriminate|].
           intros ((_ & [C|(x & f & E & _)]) & _); [contradiction|discriminate]. }
      destruct (enum_new kebab vs) as [[l em']|].
      2: { split; [intros (l & bs & E & _); discriminate|intros (_ & l & bs & E & _); discriminate]. }
      destruct (variant_emitted (sv_attrs v)) as [|m r]; cbn [app].
      2: { split; [intros (l' & bs & E & _); discriminate|intros ((E & _) & _); discriminate]. }
      destruct em as [|m r]; cbn [app].
      2: { split; [intros (l' & bs & E & _); discriminate|].
           intros ((_ & [C|(x' & f & E & _)]) & _); [contradiction|discriminate]. }
      destruct em' as [|m r].
      2: { split; [intros (l' & bs & E & _); discriminate|].
           intros (_ & l' & bs & E & _). discriminate. }
      split.
      * intros (l' & bs & E & B). injection E as <-. cbn [variant_branches] in B.
        destruct (variant_node kebab e x) as [f|] eqn:V; [|discriminate].
        destruct (variant_branches kebab e l) as [bs'|] eqn:B'; [|discriminate].
        split; [|now exists l, bs']. split; [reflexivity|]. right. exists x, f. auto.
      * intros ((_ & [C|(x' & f & E & V)]) & l' & bs & E' & B); [contradiction|].
        injection E as <-. injection E' as <-. exists (x :: l), ((va_name x, f) :: bs).
        split; [reflexivity|]. cbn [variant_branches]. now rewrite V, B.
Qed.

Theorem item_accepted (i : src_item Sp L) : item_proper i ->
  some (decode_derive kebab i) <-> item_allowed i.
Proof.
  destruct i as [ident cont fields|ident cont vs]; cbn [item_proper]; intros P.
  - now apply struct_accepted.
  - cbn [item_allowed]. rewrite <- container_iff, <- (enum_accepted_list ident vs P).
    unfold some, decode_derive, definition_parse.
    destruct (enum_new kebab vs) as [[l em]|].
    2: { split; [intros [d K]; discriminate|intros (_ & l & bs & E & _); discriminate]. }
    destruct (container_emitted cont) as [|m r]; cbn [app].
    2: { split; [intros [d K]; discriminate|intros [K _]; discriminate]. }
    destruct em as [|m r].
    2: { split; [intros [d K]; discriminate|intros (_ & l' & bs & E & _); discriminate]. }
    cbn [emit_decoder]. destruct (variant_branches kebab ident l) as [bs|] eqn:B.
    + split; [|intros _; eexists; reflexivity]. intros _. split; [reflexivity|]. now exists l, bs.
    + split; [intros [d K]; discriminate|]. intros (_ & l' & bs & E & B').
      injection E as <-. congruence.
Qed.

End Fields.
