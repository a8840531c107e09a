(** Which fields may be left out, and which structs can be flattened or be documents,
    stated on the source. *)

From Coq Require Import NArith List Bool String.
From Verif Require Import Chars Ast Errors Decode DecodeSpec DeriveDef Derive FieldSpec.
Import ListNotations.

(** The type is written [Option<...>], as a single word. *)
Definition option_written (t : rust_type) : Prop :=
  exists args, t = TPath false false [(str "Option", args)].

(** The type is written [bool]. *)
Definition bool_written (t : rust_type) : Prop := t = TPath false false [(str "bool", false)].

Section Partial.
Context {Sp L : Type}.
Implicit Type g : src_field Sp L.

(** A field that holds something for every node: a field without an attribute, a
    flattened one, one of an optional type, or a flag. *)
Definition may_be_absent g : Prop :=
  match mode_of (0, g) with
  | None | Some (FmFlatten _ _) => True
  | Some (FmProperty _) | Some (FmChildren (Some _)) => option_written (sf_type g)
  | Some FmChild =>
      option_written (sf_type g) \/ (bool_written (sf_type g) /\ unwrap_of (0, g) = None)
  | _ => False
  end.

(** A field that needs nothing of a node but its children. *)
Definition only_children g : Prop :=
  match mode_of (0, g) with
  | None | Some FmChild | Some (FmChildren _) | Some (FmFlatten _ false) => True
  | _ => False
  end.

(** The argument fields, in the order of the source. *)
Definition argument_field (x : nat * src_field Sp L) : bool :=
  match mode_of x with Some FmArgument => true | _ => false end.

End Partial.

(** ** [decode(str)] and [decode(bytes)] *)

(** What a value is decoded to with [decode(str)]. *)
Inductive from_string {Sp L} (i : tyimpl Sp L) (v : value Sp) : bool -> dval L -> Prop :=
| FS_required s x : v_type_name v = None -> s_value (v_literal v) = LString s ->
    ti_from_str i s = inl x -> from_string i v false x
| FS_optional s x : v_type_name v = None -> s_value (v_literal v) = LString s ->
    ti_from_str i s = inl x -> from_string i v true (VSome x)
| FS_null : v_type_name v = None -> s_value (v_literal v) = LNull ->
    from_string i v true VNone.

(** A string stands for its UTF-8 encoding, or with the type name [base64] for the bytes
    it encodes. *)
Definition stands_for {Sp} (v : value Sp) (b : list N) : Prop :=
  exists s, s_value (v_literal v) = LString s
    /\ ((v_type_name v = None /\ utf8_text s b)
        \/ (exists sp, v_type_name v = Some (Spanned sp (Builtin Base64))
              /\ s = b64_encode b /\ Forall byte b)).

(** What a value is decoded to with [decode(bytes)]. *)
Inductive from_bytes {Sp L} (i : tyimpl Sp L) (v : value Sp) : bool -> dval L -> Prop :=
| FB_required b x : stands_for v b -> ti_from_bytes i b = inl x -> from_bytes i v false x
| FB_optional b x : stands_for v b -> ti_from_bytes i b = inl x -> from_bytes i v true (VSome x)
| FB_null : s_value (v_literal v) = LNull -> from_bytes i v true VNone.
