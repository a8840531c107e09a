(** Which items the derive should accept, stated on the source. *)

From Coq Require Import NArith List Bool String.
From Verif Require Import Chars Ast Errors Decode DeriveDef Derive FieldSpec.
Import ListNotations.

Definition at_most_one {A} (l : list A) : Prop := List.length l <= 1.

(** ** The attributes of a field: each kind once, and only those of fields *)

Definition attrs_allowed {L} (attrs : list (attr L)) : Prop :=
  at_most_one (picks mode_attr attrs) /\ at_most_one (picks decode_attr attrs)
  /\ at_most_one (picks unwrap_attr attrs) /\ at_most_one (picks default_attr attrs)
  /\ ~ In ASkip attrs /\ ~ In ASpanType attrs.

(** What may be unwrapped: arguments and properties, with [str] or [bytes] if wanted;
    children, which may have [unwrap] again; and what is flattened. *)
Fixpoint unwrap_allowed {L} (u : field_attrs L) : Prop :=
  match u with
  | FieldAttrs mode decode unwrap _ =>
      match mode with
      | Some (FmArgument | FmArguments | FmProperty _ | FmProperties) => True
      | Some (FmChild | FmChildren _) =>
          decode = None /\ match unwrap with Some u' => unwrap_allowed u' | None => True end
      | Some (FmFlatten child property) => decode = None /\ (child = true \/ property = true)
      | Some (FmSpan | FmNodeName | FmTypeName) | None => False
      end
  end.

Definition unwrapping {L} (u : option (field_attrs L)) : Prop :=
  match u with Some u' => unwrap_allowed u' | None => True end.

Section Fields.
Context {Sp L : Type}.
Implicit Types (x : nat * src_field Sp L) (fs : list (src_field Sp L)).

Definition has_name x : Prop := sf_name (snd x) <> None.
Definition no_decoding x : Prop := ~ exists m, In (ADecodeMode m) (sf_attrs (snd x)).

(** ** One field *)

Definition field_allowed x : Prop :=
  attrs_allowed (sf_attrs (snd x))
  /\ match mode_of x with
     | None | Some (FmArgument | FmArguments | FmProperties) => True
     | Some (FmProperty name) => name <> None \/ has_name x
     | Some FmChild => has_name x /\ no_decoding x /\ unwrapping (unwrap_of x)
     | Some (FmChildren _) => no_decoding x /\ unwrapping (unwrap_of x)
     | Some (FmFlatten _ _) => optional x = false /\ no_decoding x
     | Some (FmSpan | FmNodeName | FmTypeName) => no_decoding x
     end.

(** ** All fields: and nothing comes after what takes all the rest *)

Definition fields_allowed fs : Prop :=
  Forall field_allowed (numbered fs)
  /\ ForallOrdPairs (fun x y => after_all (mode_of x) (mode_of y)) (numbered fs).

(** What Rust guarantees about a tuple; and a flattened field is flattened one way. *)
Definition tuple_proper fs : Prop := names_absent fs /\ Forall one_way (numbered fs).

Definition special x : Prop :=
  match mode_of x with Some (FmSpan | FmNodeName | FmTypeName) => True | _ => False end.

(** ** Items *)

Definition skipped (v : src_variant Sp L) : Prop := In ASkip (sv_attrs v).

Definition variant_allowed (v : src_variant Sp L) : Prop :=
  Forall (eq ASkip) (sv_attrs v)
  /\ (skipped v
      \/ match sv_fields v with
         | FUnit => True
         | FUnnamed fs => fields_allowed fs /\ Forall (fun x => ~ special x) (numbered fs)
         | FNamed _ => False
         end).

Definition item_allowed (i : src_item Sp L) : Prop :=
  match i with
  | SrcStruct _ cont fields =>
      Forall (eq ASpanType) cont
      /\ match fields with FNamed fs | FUnnamed fs => fields_allowed fs | FUnit => True end
  | SrcEnum _ cont vs => Forall (eq ASpanType) cont /\ Forall variant_allowed vs
  end.

Definition fields_proper (fields : src_fields Sp L) : Prop :=
  match fields with FUnnamed fs => tuple_proper fs | _ => True end.

Definition item_proper (i : src_item Sp L) : Prop :=
  match i with
  | SrcStruct _ _ fields => fields_proper fields
  | SrcEnum _ _ vs => Forall (fun v => fields_proper (sv_fields v)) vs
  end.

End Fields.
