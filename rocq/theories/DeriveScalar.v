(** Model of derive/src/scalar.rs: the [DecodeScalar] derive. *)

From Coq Require Import NArith List Bool String.
From Verif Require Import Chars Ast Errors Chumsky Decode Scalar DeriveDef.
Import ListNotations.

Section Kebab.

Variable kebab : text -> text.

(** derive/src/scalar.rs:22-48 [Enum::new]: the names and identifiers of the variants.
    The attributes are not looked at (line 23, [_attrs]; those of the variants are not
    mentioned). *)
Fixpoint scalar_variants {Sp L} (vs : list (src_variant Sp L)) : syn_result (list (text * text)) :=
  match vs with
  | [] => inl []
  | v :: vs' =>
      match sv_fields v with
      | FUnit =>
          match scalar_variants vs' with
          | inl l => inl ((kebab (sv_ident v), sv_ident v) :: l)
          | inr e => inr e
          end
      | _ => inr (str "only unit variants are allowed for DecodeScalar")
      end
  end.

(** derive/src/scalar.rs:51-69 [Scalar::parse], 71-77 [emit_scalar] and
    derive/src/lib.rs:39-47 [decode_scalar_derive]: the generated implementation, or the
    compile error.  What [emit_enum] (80-141) generates is [scalar_enum_impl]. *)
Definition scalar_derive {Sp L} (i : src_item Sp L) : syn_result (scalar_impl Sp (dval L)) :=
  match i with
  | SrcEnum ident _ vs =>
      match scalar_variants vs with
      | inl l => inl (scalar_enum_impl ident (map (fun nv => (fst nv, VVariant ident (snd nv) [])) l))
      | inr e => inr e
      end
  | SrcStruct _ _ _ => inr (str "expected `enum`")
  end.

End Kebab.
