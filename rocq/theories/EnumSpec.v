(** What decoding into a derived enum should do, stated on the source of the enum. *)

From Coq Require Import NArith List Bool String.
From Verif Require Import Chars Ast Errors Kdl Decode DecodeSpec DeriveDef Derive DeriveSpec FieldSpec
  StructSpec.
Import ListNotations.

Section Enum.
Context {Sp L : Type} (kebab : text -> text).

Definition skipped (v : src_variant Sp L) : Prop := In ASkip (sv_attrs v).

(** A variant is decoded from the nodes that have its name. *)
Definition answers (name : text) (v : src_variant Sp L) : Prop :=
  ~ skipped v /\ kebab (sv_ident v) = name.

(** The first such variant (if identifiers are different but their names are not,
    others are never decoded). *)
Definition variant_for (vs : list (src_variant Sp L)) (name : text) (v : src_variant Sp L) : Prop :=
  exists before after, vs = before ++ v :: after /\ answers name v
    /\ Forall (fun w => ~ answers name w) before.

(** The names of the variants that are not skipped. *)
Inductive offers : list (src_variant Sp L) -> list text -> Prop :=
| Of_nil : offers [] []
| Of_skipped v vs names : skipped v -> offers vs names -> offers (v :: vs) names
| Of_name v vs names : ~ skipped v -> offers vs names ->
    offers (v :: vs) (kebab (sv_ident v) :: names).

(** A message that has a name in backquotes. *)
Definition mentions (msg name : text) : Prop :=
  exists before after, msg = before ++ str "`" ++ escape_default name ++ str "`" ++ after.

(** A node that has nothing but a name and a type. *)
Definition bare (n : snode Sp) : Prop :=
  n_arguments (s_value n) = [] /\ n_properties (s_value n) = [] /\ n_children (s_value n) = None.

(** The node without its type name. *)
Definition untyped (n : snode Sp) : snode Sp :=
  Spanned (s_span n)
    (Node None (n_node_name (s_value n)) (n_arguments (s_value n)) (n_properties (s_value n))
       (n_children (s_value n))).

(** The fields of the struct become those of the variant. *)
Definition as_variant (ident variant : text) (x : dval L) : dval L :=
  match x with
  | VStruct _ fs => VVariant ident variant (map snd fs)
  | _ => x
  end.

(** The outcome of decoding a variant from a node. *)
Inductive variant_gives (ident : text) (v : src_variant Sp L) (n : snode Sp) (c : context Sp)
  : context Sp * dout Sp (dval L) -> Prop :=
| VG_unit :
    sv_fields v = FUnit ->
    variant_gives ident v n c
      (with_errors c (flag_errors (s_value n)), DOk (VVariant ident (sv_ident v) []))
| VG_nested f :
    sv_fields v = FUnnamed [f] -> mode_of (0, f) = None -> is_option (sf_type f) = false ->
    variant_gives ident v n c
      (d_map (fun x => VVariant ident (sv_ident v) [x]) (ti_node (sf_impl f) n) c)
| VG_none f :
    sv_fields v = FUnnamed [f] -> mode_of (0, f) = None -> is_option (sf_type f) = true ->
    bare n ->
    variant_gives ident v n c (c, DOk (VVariant ident (sv_ident v) [VNone]))
| VG_some f :
    sv_fields v = FUnnamed [f] -> mode_of (0, f) = None -> is_option (sf_type f) = true ->
    ~ bare n ->
    variant_gives ident v n c
      (d_map (fun x => VVariant ident (sv_ident v) [VSome x]) (ti_node (sf_impl f) n) c)
| VG_tuple fs d :
    sv_fields v = FUnnamed fs -> ~ newtype false fs ->
    decode_derive kebab (struct_item false (sv_ident v) [] fs) = Some d ->
    variant_gives ident v n c
      (d_map (as_variant ident (sv_ident v)) (dr_node d (untyped n)) c).

(** What Rust guarantees about the fields of the variants (see [proper]). *)
Definition proper_variants (vs : list (src_variant Sp L)) : Prop :=
  Forall (fun v => match sv_fields v with FUnnamed fs => proper false fs | _ => True end) vs.

End Enum.
