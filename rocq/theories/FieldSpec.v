(** What the derive should make of the fields of a struct, stated on the source. *)

From Coq Require Import NArith List Bool String.
From Verif Require Import Chars Ast Errors Decode DeriveDef Derive.
Import ListNotations.

(** ** Attributes *)

Definition picks {A B} (f : A -> option B) (l : list A) : list B :=
  flat_map (fun a => match f a with Some x => [x] | None => [] end) l.

Definition mode_attr {L} (a : attr L) : option field_mode :=
  match a with AFieldMode m => Some m | _ => None end.
Definition decode_attr {L} (a : attr L) : option decode_mode :=
  match a with ADecodeMode m => Some m | _ => None end.
Definition unwrap_attr {L} (a : attr L) : option (field_attrs L) :=
  match a with AUnwrap u => Some u | _ => None end.
Definition default_attr {L} (a : attr L) : option (dval L) :=
  match a with ADefault v => Some v | _ => None end.

Section Fields.
Context {Sp L : Type} (kebab : text -> text).
Implicit Type x : nat * src_field Sp L.

(** The attributes of a field; each may be there once. *)
Definition mode_of x : option field_mode := hd_error (picks mode_attr (sf_attrs (snd x))).
Definition decode_of x : decode_mode :=
  match picks decode_attr (sf_attrs (snd x)) with m :: _ => m | [] => DmNormal end.
Definition unwrap_of x : option (field_attrs L) :=
  hd_error (picks unwrap_attr (sf_attrs (snd x))).
Definition default_of x : option (dval L) := hd_error (picks default_attr (sf_attrs (snd x))).
Definition optional x : bool := is_option (sf_type (snd x)).
Definition boolean x : bool := is_bool (sf_type (snd x)).

(** The field, by its name or number. *)
Definition numbered (fs : list (src_field Sp L)) : list (nat * src_field Sp L) :=
  combine (seq 0 (List.length fs)) fs.

Definition the_field x : field Sp L :=
  Field (match sf_name (snd x) with Some n => Named n | None => Indexed (fst x) end)
    (sf_impl (snd x)).

(** ** Where a field belongs *)

Definition spans_of x : list (field Sp L) :=
  match mode_of x with Some FmSpan => [the_field x] | _ => [] end.

Definition node_names_of x : list (field Sp L) :=
  match mode_of x with Some FmNodeName => [the_field x] | _ => [] end.

Definition type_names_of x : list (field Sp L * bool) :=
  match mode_of x with Some FmTypeName => [(the_field x, optional x)] | _ => [] end.

Definition arguments_of x : list (arg Sp L) :=
  match mode_of x with
  | Some FmArgument => [Arg (the_field x) (optional x) (decode_of x) (default_of x) (optional x)]
  | _ => []
  end.

Definition var_args_of x : list (field Sp L * decode_mode) :=
  match mode_of x with Some FmArguments => [(the_field x, decode_of x)] | _ => [] end.

(** The name of a property or child: the one given, or else that of the field in
    kebab case. *)
Definition key_of x (name : option text) : text :=
  match name, sf_name (snd x) with
  | Some n, _ => n
  | None, Some n => kebab n
  | None, None => []
  end.

Definition properties_of x : list (prop Sp L) :=
  match mode_of x with
  | Some (FmProperty name) =>
      [Prop_ (the_field x) (key_of x name) (optional x) (decode_of x) false (default_of x)]
  | Some (FmFlatten _ true) => [Prop_ (the_field x) [] false DmNormal true None]
  | _ => []
  end.

Definition var_props_of x : list (field Sp L * decode_mode) :=
  match mode_of x with Some FmProperties => [(the_field x, decode_of x)] | _ => [] end.

(** A child that is a plain [bool] is a flag. *)
Definition children_of x : list (child Sp L) :=
  match mode_of x with
  | Some FmChild =>
      [Child (the_field x) (key_of x None) (optional x)
         (match unwrap_of x with None => if boolean x then CmBool else CmNormal | _ => CmNormal end)
         (unwrap_of x) (default_of x)]
  | Some (FmChildren (Some name)) =>
      [Child (the_field x) name (optional x) CmMulti (unwrap_of x) (default_of x)]
  | Some (FmFlatten true _) => [Child (the_field x) [] false CmFlatten None None]
  | _ => []
  end.

Definition var_children_of x : list (field Sp L * option (field_attrs L)) :=
  match mode_of x with Some (FmChildren None) => [(the_field x, unwrap_of x)] | _ => [] end.

Definition extra_of x : list (field Sp L * bool) :=
  match mode_of x with None => [(the_field x, optional x)] | _ => [] end.

Definition lone {A} (o : option A) : list A := match o with Some x => [x] | None => [] end.

(** The struct holds the fields by category, each in the order of the source, and at
    most one field that takes all the rest of a category. *)
Record filed (ident : text) (fs : list (src_field Sp L)) (s : struct Sp L) : Prop := Filed {
  fi_ident : st_ident s = ident;
  fi_spans : st_spans s = flat_map spans_of (numbered fs);
  fi_node_names : st_node_names s = flat_map node_names_of (numbered fs);
  fi_type_names : st_type_names s = flat_map type_names_of (numbered fs);
  fi_arguments : st_arguments s = flat_map arguments_of (numbered fs);
  fi_var_args : lone (st_var_args s) = flat_map var_args_of (numbered fs);
  fi_properties : st_properties s = flat_map properties_of (numbered fs);
  fi_var_props : lone (st_var_props s) = flat_map var_props_of (numbered fs);
  fi_children : st_children s = flat_map children_of (numbered fs);
  fi_var_children : lone (st_var_children s) = flat_map var_children_of (numbered fs);
  fi_extra : st_extra s = flat_map extra_of (numbered fs);
}.

(** What comes after a field that takes all the rest. *)
Definition after_all (m m' : option field_mode) : Prop :=
  match m, m' with
  | Some FmArguments, Some (FmArgument | FmArguments) => False
  | Some FmProperties, Some (FmProperty _ | FmProperties | FmFlatten _ true) => False
  | Some (FmChildren None), Some (FmChild | FmChildren _ | FmFlatten true _) => False
  | _, _ => True
  end.

(** A field that is flattened is flattened as properties or as children, not as both
    and not as nothing. *)
Definition one_way x : Prop :=
  match mode_of x with
  | Some (FmFlatten true true) | Some (FmFlatten false false) => False
  | _ => True
  end.

(** The fields of Rust structs have different names, or none have names. *)
Definition names_given (fs : list (src_field Sp L)) : Prop :=
  (Forall (fun f => sf_name f <> None) fs /\ NoDup (map sf_name fs)).
Definition names_absent (fs : list (src_field Sp L)) : Prop :=
  Forall (fun f => sf_name f = None) fs.

End Fields.

(** The value of a field in a decoded struct. *)
Definition holds {Sp L} (v : dval L) (f : field Sp L) (x : dval L) : Prop :=
  match v with VStruct _ fs => get_field (f_attr f) fs = Some x | _ => False end.
