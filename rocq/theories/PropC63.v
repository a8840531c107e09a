(** C63: which structs and enums the derive accepts.  [item_allowed] and [item_proper] are
    about the attributes, names and types in the source (AcceptSpec.v). *)

From Coq Require Import NArith ZArith List Bool String.
From Verif Require Import Chars Ast Errors Chumsky Spans Grammar Conformance Kdl Decode Scalar Containers
  DecodeSpec DeriveDef Derive DeriveSpec FieldSpec StructSpec AcceptSpec AcceptProps
  DeriveConformance DeriveSample UnwrapSample AcceptSample.
Import ListNotations.
Local Open Scope string_scope.
Local Open Scope list_scope.

Theorem C63_accepts : forall Sp L kebab (i : src_item Sp L), item_proper i ->
  decode_derive kebab i <> None <-> item_allowed i.
Proof. exact derive_accepts. Qed.
Print Assumptions C63_accepts.

(** The fields alone, before code is generated. *)
Theorem C63_fields : forall Sp L kebab ident (fs : list (src_field Sp L)),
  (exists s, struct_new kebab ident fs = inl (s, []) /\ unwraps_compile kebab s = true)
  <-> fields_allowed fs.
Proof. exact @fields_allowed_iff. Qed.
Print Assumptions C63_fields.

(** [unwrap(..)] at any depth. *)
Theorem C63_unwrap : forall Sp L kebab name (i : tyimpl Sp L) (u : field_attrs L),
  unwrap_compiles kebab name i u = true <-> unwrap_allowed u.
Proof. exact @unwrap_compiles_iff. Qed.
Print Assumptions C63_unwrap.

(** Structs and enums of every kind; and an item for each reason to reject one. *)
Example C63_example : List.length good_items = 8 /\ Forall item_proper good_items
  /\ Forall item_allowed good_items
  /\ List.length bad_items = 15 /\ Forall item_proper bad_items
  /\ Forall (fun i => ~ item_allowed i) bad_items.
Proof.
  exact (conj eq_refl (conj good_proper (conj good_allowed
    (conj eq_refl (conj bad_proper bad_not_allowed))))).
Qed.

(** Not every attribute without effect is rejected. *)
Example C63_ignored : item_allowed (one [decode_str]).
Proof. exact decode_ignored. Qed.
