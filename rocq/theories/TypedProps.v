(** Type names of nodes. *)

From Coq Require Import NArith List Bool String Lia.
From Verif Require Import Chars Ast Errors Chumsky Kdl Decode Scalar DecodeSpec DecodeProps
  DeriveDef Derive DeriveSpec DeriveProps FieldSpec FieldProps StructSpec StructProps HandSpec
  HandProps MissProps EnumSpec EnumProps.
Import ListNotations.

Section Typed.
Context {Sp L : Type} (kebab : text -> text).

Lemma type_name_asked named ident cont (fs : list (src_field Sp L)) d :
  derives_struct kebab named ident cont fs d ->
  Forall (fun f => within appends (sf_impl f)) fs ->
  forall n v, fine (dr_node d n) v -> n_type_name (s_value n) <> None ->
  exists x, In x (numbered fs) /\ mode_of x = Some FmTypeName.
Proof.
  intros D Ho n v F T. destruct (ds_took kebab _ _ _ _ _ D Ho n v F) as (_ & _ & _ & H).
  destruct H as [H|H]; [contradiction|].
  destruct (flat_map type_names_of (numbered fs)) as [|y l] eqn:E; [congruence|].
  assert (I : In y (flat_map type_names_of (numbered fs))) by (rewrite E; now left).
  apply in_flat_map in I. destruct I as (x & I & J). exists x. split; [assumption|].
  unfold type_names_of in J. destruct (mode_of x) as [[]|]; try destruct J; reflexivity.
Qed.

Lemma unwrap_untyped (f : field Sp L) u n c :
  node_fn kebab f (Some u) (untyped n) c = node_fn kebab f (Some u) n c.
Proof.
  cbn [node_fn]. destruct u as [mode decode unwrap default]. cbn [unwrap_fn].
  unfold d_bind. rewrite args_untyped. destruct (decode_args _ n c) as [c1 [xs| |]]; try reflexivity.
Qed.

Lemma flag_untyped (n : snode Sp) c : check_flag_node (untyped n) c = check_flag_node n c.
Proof. rewrite !flag_node. reflexivity. Qed.

Lemma variant_untyped ident cont (vs : list (src_variant Sp L)) d v n c :
  decode_derive kebab (SrcEnum ident cont vs) = Some d -> proper_variants vs ->
  variant_for kebab vs (name_of n) v ->
  match sv_fields v with FUnnamed fs => ~ newtype false fs | _ => True end ->
  dr_node d (untyped n) c = dr_node d n c.
Proof.
  intros D P A N. apply (enum_dispatch kebab _ _ _ _ D P v (untyped n) c _ A).
  assert (G : variant_gives kebab ident v n c (dr_node d n c))
    by now apply (enum_dispatch kebab _ _ _ _ D P v n c _ A).
  inversion G as [F E|f F M O E|f F M O Br E|f F M O Br E|fs d' F N' D' E];
    rewrite F in N; try (exfalso; apply N; now apply newtype_none);
    rewrite <- ?E.
  - exact (VG_unit kebab ident v (untyped n) c F).
  - exact (VG_tuple kebab ident v (untyped n) c fs d' F N' D').
Qed.

Lemma new_type_untyped ident cont (f : src_field Sp L) d n c :
  decode_derive kebab (struct_item false ident cont [f]) = Some d -> mode_of (0, f) = None ->
  bare n -> dr_node d (untyped n) c = dr_node d n c.
Proof.
  intros D M B. destruct (new_type_right kebab _ _ _ _ n c D M) as [H _].
  destruct (new_type_right kebab _ _ _ _ (untyped n) c D M) as [H' _].
  rewrite H by assumption. now apply H'.
Qed.

End Typed.
