(** What decoding into a derived struct should do, stated on the source of the struct. *)

From Coq Require Import NArith List Bool String Permutation.
From Verif Require Import Chars Ast Errors Kdl Decode DecodeSpec DeriveDef Derive DeriveSpec FieldSpec.
Import ListNotations.

Section Struct.
Context {Sp L : Type} (kebab : text -> text).

(** A struct with named fields or a tuple struct. *)
Definition struct_item (named : bool) (ident : text) (cont : list (attr L))
    (fs : list (src_field Sp L)) : src_item Sp L :=
  SrcStruct ident cont (if named then FNamed fs else FUnnamed fs).

(** What Rust guarantees about the names; and a flattened field is flattened one way
    (C44 says what happens otherwise). *)
Definition proper (named : bool) (fs : list (src_field Sp L)) : Prop :=
  (if named then names_given fs else names_absent fs) /\ Forall one_way (numbered fs).

(** A tuple struct whose only field has no attribute: C43 is about these. *)
Definition newtype (named : bool) (fs : list (src_field Sp L)) : Prop :=
  named = false /\ exists f, fs = [f] /\ mode_of (0, f) = None.

Variable fs : list (src_field Sp L).

(** The fields of each category. *)
Definition special_fields : list (field Sp L) :=
  flat_map spans_of (numbered fs) ++ flat_map node_names_of (numbered fs)
  ++ map fst (flat_map type_names_of (numbered fs)).

Definition the_arguments := flat_map arguments_of (numbered fs).
Definition the_var_args := hd_error (flat_map var_args_of (numbered fs)).
Definition argument_fields : list (field Sp L) :=
  map ar_field the_arguments ++ map fst (lone the_var_args).

Definition the_properties := flat_map (properties_of kebab) (numbered fs).
Definition the_var_props := hd_error (flat_map var_props_of (numbered fs)).
Definition property_fields : list (field Sp L) :=
  map pr_field the_properties ++ map fst (lone the_var_props).

Definition the_children := flat_map (children_of kebab) (numbered fs).
Definition the_var_children := hd_error (flat_map var_children_of (numbered fs)).
Definition child_fields : list (field Sp L) :=
  map ch_field the_children ++ map fst (lone the_var_children).

Definition extra_fields : list (field Sp L) := map fst (flat_map extra_of (numbered fs)).

(** The decoder of a child field is that of its type, or of what is unwrapped (C39). *)
Definition rest_decoder : option (node_impl Sp (dval L)) :=
  match the_var_children with Some (f, u) => Some (node_fn kebab f u) | None => None end.

(** No two fields ask for the same name, and none is flattened (C38 is about
    flattened ones). *)
Definition plain_fields : Prop := plain_props the_properties /\ plain_children the_children.

Definition children_are (ns : list (snode Sp)) : context Sp -> list (dval L) -> context Sp -> Prop :=
  children_right (child_fn kebab) rest_decoder the_children ns.

(** The parts of a node. *)
Definition node_parts (n : snode Sp) (c : context Sp) (ws xs ys zs : list (dval L))
    (c' : context Sp) : Prop :=
  exists c1 c2 c3,
    special_right (flat_map spans_of (numbered fs)) (flat_map node_names_of (numbered fs))
      (flat_map type_names_of (numbered fs)) n c ws c1
    /\ args_right the_arguments the_var_args (n_arguments (s_value n))
         (with_errors c1 (type_name_errors (flat_map type_names_of (numbered fs)) (s_value n)))
         xs c2
    /\ props_right the_properties the_var_props (n_properties (s_value n)) c2 ys c3
    /\ children_are (node_children (s_value n)) c3 zs c'.

(** The value of the struct: it has each field once, and these are their values. *)
Definition is_struct (ident : text) (v : dval L) : Prop :=
  exists l, v = VStruct ident l
    /\ Permutation (map fst l) (map (fun x => f_attr (the_field x)) (numbered fs)).

Definition all_hold (v : dval L) : list (field Sp L) -> list (dval L) -> Prop :=
  Forall2 (holds v).

Definition extra_hold (v : dval L) : Prop :=
  Forall (fun f => holds v f (ti_default (f_impl f))) extra_fields.

End Struct.

(** ** What decoders do to the context *)

(** A relation between the contexts before and after, that allows errors to be
    added. *)
Record onward {Sp} (R : context Sp -> context Sp -> Prop) : Prop := Onward {
  on_refl : forall c, R c c;
  on_trans : forall c1 c2 c3, R c1 c2 -> R c2 c3 -> R c1 c3;
  on_emit : forall c e, R c (emit_error e c);
}.

Definition moves {Sp A} (R : context Sp -> context Sp -> Prop) (m : dec Sp A) : Prop :=
  forall c, R c (fst (m c)).

(** The implementations for a type do no more than the relation says. *)
Record within {Sp L} (R : context Sp -> context Sp -> Prop) (i : tyimpl Sp L) : Prop := Within {
  wi_scalar : forall v, moves R (ti_scalar i v);
  wi_node : forall n, moves R (ti_node i n);
  wi_span : forall sp c, R c (fst (ti_span i sp c));
  wi_insert_child : forall x n, moves R (ti_insert_child i x n);
  wi_insert_property : forall x k v, moves R (ti_insert_property i x k v);
}.

(** The same for the implementations that a derive gives. *)
Record within_derived {Sp L} (R : context Sp -> context Sp -> Prop) (d : derived Sp L) : Prop :=
  WithinDerived {
  wd_node : forall n, moves R (dr_node d n);
  wd_children : forall f, dr_children d = Some f -> forall ns, moves R (f ns);
  wd_insert_child : forall f, dr_insert_child d = Some f -> forall x n, moves R (f x n);
  wd_insert_property :
    forall f, dr_insert_property d = Some f -> forall x k v, moves R (f x k v);
}.

(** The types of the fields of an item. *)
Definition fields_in {Sp L} (fs : src_fields Sp L) : list (src_field Sp L) :=
  match fs with FNamed l | FUnnamed l => l | FUnit => [] end.

Definition types_in {Sp L} (i : src_item Sp L) : list (tyimpl Sp L) :=
  match i with
  | SrcStruct _ _ fs => map sf_impl (fields_in fs)
  | SrcEnum _ _ vs => flat_map (fun v => map sf_impl (fields_in (sv_fields v))) vs
  end.

(** Errors are only added. *)
Definition appends {Sp} (c c' : context Sp) : Prop :=
  exists es, c_errors c' = c_errors c ++ es.

(** A log of errors that is read from the extensions of the context: all that is in it
    was reported. *)
Definition reported {Sp} (log : list (N * N) -> list (derror Sp)) (c : context Sp) : Prop :=
  incl (log (c_ext c)) (c_errors c).

(** A scalar implementation does no more than the relation says, whichever of its
    functions is called. *)
Record scalar_within {Sp A} (R : context Sp -> context Sp -> Prop) (i : scalar_impl Sp A) : Prop :=
  ScalarWithin {
  sw_type_check : forall ty c, R c (sc_type_check i ty c);
  sw_raw_decode : forall v, moves R (sc_raw_decode i v);
  sw_decode : forall v, moves R (sc_decode i v);
}.
