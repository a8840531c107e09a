(** When decoders do not panic. *)

From Coq Require Import NArith List Bool String.
From Verif Require Import Chars Ast Errors Decode DeriveDef Derive FieldSpec StructSpec.
Import ListNotations.

(** No panic; and what comes out has the property [P]. *)
Definition yields {Sp A} (P : A -> Prop) (m : dec Sp A) : Prop :=
  forall c, match snd (m c) with DOk a => P a | DErr _ => True | DPanic => False end.

Definition calm {Sp A} (m : dec Sp A) : Prop := forall c, snd (m c) <> DPanic.

(** A value that can be given to [insert_child] and [insert_property] again and again. *)
Definition steady_for {Sp L} (ic : dval L -> snode Sp -> dec Sp (bool * dval L))
    (ip : dval L -> spanned text Sp -> value Sp -> dec Sp (bool * dval L)) (x : dval L) : Prop :=
  exists P : dval L -> Prop, P x
    /\ (forall y n, P y -> yields (fun r => P (snd r)) (ic y n))
    /\ (forall y k v, P y -> yields (fun r => P (snd r)) (ip y k v)).

Definition steady {Sp L} (i : tyimpl Sp L) : dval L -> Prop :=
  steady_for (ti_insert_child i) (ti_insert_property i).

(** What a field needs of its type depends on its attributes.  A value: [DecodeScalar],
    unless it is decoded from a string or bytes. *)
Definition scalar_calm {Sp L} (m : decode_mode) (i : tyimpl Sp L) : Prop :=
  m = DmNormal -> forall v, calm (ti_scalar i v).

(** A node: [Decode], or what [unwrap(..)] says.  What is [False] here gives code with an
    unbound variable, which rustc rejects. *)
Fixpoint unwrap_calm {Sp L} (i : tyimpl Sp L) (u : field_attrs L) : Prop :=
  match u with
  | FieldAttrs mode decode inner _ =>
      match mode with
      | Some (FmArgument | FmArguments | FmProperty _ | FmProperties) =>
          scalar_calm (match decode with Some m => m | None => DmNormal end) i
      | Some (FmChild | FmChildren _) =>
          match inner with
          | Some u' => unwrap_calm i u'
          | None => forall n, calm (ti_node i n)
          end
      | Some (FmFlatten child property) =>
          (child = true \/ property = true) /\ steady i (ti_default i)
      | Some (FmSpan | FmNodeName | FmTypeName) | None => False
      end
  end.

Definition nodes_calm {Sp L} (i : tyimpl Sp L) (u : option (field_attrs L)) : Prop :=
  match u with
  | Some a => unwrap_calm i a
  | None => forall n, calm (ti_node i n)
  end.

(** [only]: it is the only field.  [flatten()] leaves a field without a value, so rustc
    rejects it. *)
Definition field_calm {Sp L} (only : bool) (x : nat * src_field Sp L) : Prop :=
  let i := sf_impl (snd x) in
  match mode_of x with
  | Some (FmArgument | FmArguments | FmProperty _ | FmProperties) => scalar_calm (decode_of x) i
  | Some FmChild => (boolean x = true /\ unwrap_of x = None) \/ nodes_calm i (unwrap_of x)
  | Some (FmChildren _) => nodes_calm i (unwrap_of x)
  | Some (FmFlatten child property) =>
      (child = true \/ property = true) /\ steady i (ti_default i)
  | Some (FmSpan | FmNodeName | FmTypeName) => True
  | None => only = true -> forall n, calm (ti_node i n)
  end.

Definition fields_calm {Sp L} (fs : list (src_field Sp L)) : Prop :=
  Forall (field_calm (match fs with [_] => true | _ => false end)) (numbered fs).

Definition item_calm {Sp L} (i : src_item Sp L) : Prop :=
  match i with
  | SrcStruct _ _ fs => fields_calm (fields_in fs)
  | SrcEnum _ _ vs => Forall (fun v => fields_calm (fields_in (sv_fields v))) vs
  end.

(** The values that a field of a struct can have by its type: an [Option], a [bool], or
    something to insert into. *)
Definition field_shape {Sp L} (x : nat * src_field Sp L) (v : dval L) : Prop :=
  match mode_of x with
  | Some FmChild =>
      (optional x = true -> v = VNone \/ exists y, v = VSome y)
      /\ (boolean x = true -> exists b, v = VBool b)
  | Some (FmFlatten _ _) => steady (sf_impl (snd x)) v
  | _ => True
  end.

Definition struct_shape {Sp L} (fs : list (src_field Sp L)) (v : dval L) : Prop :=
  forall x, In x (numbered fs) -> exists y, holds v (the_field x) y /\ field_shape x y.

(** [children(name=..)] of type [Option<_>]: the generated [insert_child] does not
    compile. *)
Definition no_optional_lists {Sp L} (fs : list (src_field Sp L)) : Prop :=
  forall x name, In x (numbered fs) -> mode_of x = Some (FmChildren (Some name)) ->
  optional x = false.

(** The scalars of the library: both ways to decode them. *)
Definition calm_scalar {Sp A} (i : scalar_impl Sp A) : Prop :=
  (forall v, calm (sc_raw_decode i v)) /\ (forall v, calm (sc_decode i v)).
