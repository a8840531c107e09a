(** What it means that flattening a struct is the same as declaring its fields. *)

From Coq Require Import NArith List Bool String.
From Verif Require Import Chars Ast Errors Kdl Decode DecodeSpec DeriveDef Derive DeriveSpec FieldSpec
  StructSpec HandSpec.
Import ListNotations.

Section Flatten.
Context {Sp L : Type} (kebab : text -> text).

(** The fields that may be flattened: optional properties, and children that are
    optional or flags; without defaults. *)
Definition optional_property (g : src_field Sp L) : Prop :=
  (exists name, mode_of (0, g) = Some (FmProperty name))
  /\ is_option (sf_type g) = true /\ default_of (0, g) = None.

Definition optional_child (g : src_field Sp L) : Prop :=
  mode_of (0, g) = Some FmChild
  /\ ((is_option (sf_type g) = true /\ default_of (0, g) = None)
      \/ (is_bool (sf_type g) = true /\ unwrap_of (0, g) = None)).

(** [Default] of [Option] and [bool]. *)
Definition empty_value (g : src_field Sp L) : access * dval L :=
  (f_attr (the_field (0, g)), if is_bool (sf_type g) then VBool false else VNone).

(** The type of the field [fl] is the struct [inner] with the fields [gs]. *)
Record holds_struct (fl : src_field Sp L) (inner : text) (cont : list (attr L))
    (gs : list (src_field Sp L)) (d : derived Sp L) : Prop := HoldsStruct {
  hs_derived : derives_struct kebab true inner cont gs d;
  hs_default : ti_default (sf_impl fl) = VStruct inner (map empty_value gs);
  hs_child : dr_insert_child d = Some (ti_insert_child (sf_impl fl));
  hs_property : dr_insert_property d = Some (ti_insert_property (sf_impl fl));
}.

(** The same values, those of the inner struct in its own struct or not. *)
Definition spliced (inner : text) (fl : src_field Sp L) (v v' : dval L) : Prop :=
  exists ident before within after,
    v = VStruct ident (before ++ (f_attr (the_field (0, fl)), VStruct inner within) :: after)
    /\ v' = VStruct ident (before ++ within ++ after).

(** The same outcome, up to the values. *)
Definition same_outcome {A B} (R : A -> B -> Prop) (r : context Sp * dout Sp A)
    (r' : context Sp * dout Sp B) : Prop :=
  fst r = fst r'
  /\ match snd r, snd r' with
     | DOk x, DOk y => R x y
     | DErr e, DErr e' => e = e'
     | DPanic, DPanic => True
     | _, _ => False
     end.

End Flatten.

(** Errors were reported. *)
Definition loud {Sp} (c c' : context Sp) : Prop :=
  exists es, es <> [] /\ c_errors c' = c_errors c ++ es.

(** The same outcome; or errors were reported, where inlining fails. *)
Definition sim {Sp A B} (c : context Sp) (R : A -> B -> Prop) (r : context Sp * dout Sp A)
    (r' : context Sp * dout Sp B) : Prop :=
  same_outcome R r r' \/ (loud c (fst r) /\ exists c1 e, r' = (c1, DErr e)).
