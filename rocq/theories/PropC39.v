(** C39: unwrapped children.  [node_fn kebab f (Some (inside mode parse inner default))] is
    what decodes a node for a field [f] with [unwrap(...)]; UnwrapSpec.v says what is
    expected of it.  [inner] is an [unwrap] inside the [unwrap]. *)

From Coq Require Import NArith ZArith List Bool String Lia.
From Verif Require Import Chars Ast Errors Chumsky Spans Grammar Conformance Kdl Decode Scalar Containers
  DecodeSpec DeriveDef Derive DeriveSpec FieldSpec StructSpec HandSpec UnwrapSpec UnwrapProps
  HonestProps DeriveConformance DeriveSample UnwrapSample ScalarEnumSpec ScalarEnumProps.
Import ListNotations.
Local Open Scope list_scope.

(** [unwrap(argument)]: there is exactly one argument (or none, if there is a default),
    there are no properties, and the field has the value of the argument.  Each child is
    reported. *)
Theorem C39_argument : forall Sp L kebab (f : field Sp L) parse inner default n c x c',
  NoDup (names_of (n_properties (s_value n))) ->
  node_fn kebab f (Some (inside FmArgument parse inner default)) n c = (c', DOk x) <->
  unwraps_argument f parse default n c x c'.
Proof. exact @unwrap_argument. Qed.
Print Assumptions C39_argument.

Theorem C39_arguments : forall Sp L kebab (f : field Sp L) parse inner default n c x c',
  NoDup (names_of (n_properties (s_value n))) ->
  node_fn kebab f (Some (inside FmArguments parse inner default)) n c = (c', DOk x) <->
  unwraps_arguments f parse n c x c'.
Proof. exact @unwrap_arguments. Qed.
Print Assumptions C39_arguments.

Theorem C39_property : forall Sp L kebab (f : field Sp L) parse inner default name n c x c',
  NoDup (names_of (n_properties (s_value n))) ->
  node_fn kebab f (Some (inside (FmProperty name) parse inner default)) n c = (c', DOk x) <->
  unwraps_property f parse default
    (match name with Some k => k | None => kebab (tmp_name (f_attr f)) end) n c x c'.
Proof. exact @unwrap_property. Qed.
Print Assumptions C39_property.

Theorem C39_properties : forall Sp L kebab (f : field Sp L) parse inner default n c x c',
  NoDup (names_of (n_properties (s_value n))) ->
  node_fn kebab f (Some (inside FmProperties parse inner default)) n c = (c', DOk x) <->
  unwraps_properties f parse n c x c'.
Proof. exact @unwrap_properties. Qed.
Print Assumptions C39_properties.

Theorem C39_children : forall Sp L kebab (f : field Sp L) parse inner default n c x c',
  NoDup (names_of (n_properties (s_value n))) ->
  node_fn kebab f (Some (inside (FmChildren None) parse inner default)) n c = (c', DOk x) <->
  unwraps_children (node_fn kebab f inner) n c x c'.
Proof. exact @unwrap_children. Qed.
Print Assumptions C39_children.

Theorem C39_children_named : forall Sp L kebab (f : field Sp L) parse inner default name n c x c',
  NoDup (names_of (n_properties (s_value n))) ->
  node_fn kebab f (Some (inside (FmChildren (Some name)) parse inner default)) n c = (c', DOk x) <->
  unwraps_named (node_fn kebab f inner) default name n c x c'.
Proof. exact @unwrap_named. Qed.
Print Assumptions C39_children_named.

Theorem C39_child : forall Sp L kebab (f : field Sp L) parse inner default n c x c',
  NoDup (names_of (n_properties (s_value n))) ->
  node_fn kebab f (Some (inside FmChild parse inner default)) n c = (c', DOk x) <->
  unwraps_child (node_fn kebab f inner) default (kebab (tmp_name (f_attr f))) n c x c'.
Proof. exact @unwrap_child. Qed.
Print Assumptions C39_child.

(** The name that goes without saying is that of the field; field [i] of a tuple is
    called "field[i]". *)
Theorem C39_named_field : forall name, tmp_name (Named name) = name.
Proof. exact named_field_name. Qed.
Print Assumptions C39_named_field.

Theorem C39_tuple_field : forall i, (N.of_nat i < 10 ^ 20)%N ->
  exists t, tmp_name (Indexed i) = str "field" ++ t /\ numeral t (N.of_nat i).
Proof. exact tuple_field_name. Qed.
Print Assumptions C39_tuple_field.

(** Without errors, what is unwrapped is all that the node has. *)
Theorem C39_nothing_else : forall Sp L kebab (f : field Sp L) mode parse inner default n x,
  within appends (f_impl f) -> NoDup (names_of (n_properties (s_value n))) -> unwrappable mode ->
  fine (node_fn kebab f (Some (inside mode parse inner default)) n) x ->
  all_inside kebab f parse inner default n mode x.
Proof. exact @unwrap_inside. Qed.
Print Assumptions C39_nothing_else.

(** The field of a struct holds it. *)
Theorem C39_field : forall Sp L kebab named ident cont (fs : list (src_field Sp L)) d,
  derives_struct kebab named ident cont fs d ->
  Forall (fun f => within appends (sf_impl f)) fs ->
  forall n v h mode parse inner default m,
  plain_fields kebab fs -> increasing (n_properties (s_value n)) ->
  fine (dr_node d n) v ->
  In h (the_children kebab fs) -> ch_mode h = CmNormal ->
  ch_unwrap h = Some (inside mode parse inner default) -> unwrappable mode ->
  In m (node_children (s_value n)) -> name_of m = ch_name h ->
  increasing (n_properties (s_value m)) ->
  exists x, holds v (ch_field h) (stored h x)
    /\ all_inside kebab (ch_field h) parse inner default m mode x.
Proof. exact @unwrapped_field. Qed.
Print Assumptions C39_field.

(** A struct that unwraps in each way, and a node with all of its children. *)
Example C39_example :
  derives_struct kebab true (str "Wrap") [] wrap_fields wrap
  /\ Forall (fun f => within appends (sf_impl f)) wrap_fields
  /\ plain_fields kebab wrap_fields
  /\ fine (dr_node wrap wrap_node) wrap_value
  /\ map (fun h => (ch_name h, ch_mode h)) (the_children kebab wrap_fields)
     = map (fun m => (name_of m, CmNormal)) (node_children (s_value wrap_node))
  /\ map (fun h => option_map fa_mode (ch_unwrap h)) (the_children kebab wrap_fields)
     = map (fun m => Some (Some m))
         [ FmArgument; FmArguments; FmProperty None; FmProperties; FmChildren None;
           FmChildren (Some (str "point")); FmChild ].
Proof.
  split; [exact (conj wrap_derived (conj wrap_proper wrap_newtype))|].
  split; [exact (wrap_within appends appends_onward)|].
  split; [exact wrap_plain|]. split; [exact wrap_fine|].
  split; vm_compute; reflexivity.
Qed.

(** A node for which nothing is unwrapped, and one that has more than one argument. *)
Example C39_errors :
  (exists c, dr_node wrap (first_node (q "n { one 'x' 'y'; }")) context_new = (c, DErr
     (DUnexpected (Span 12 15) (str "argument") (str "unexpected argument"))))
  /\ exists c, dr_node wrap (first_node (q "n { one; }")) context_new = (c, DErr
     (DMissing (Span 4 7) (str "additional argument `one` is required"))).
Proof. split; eexists; vm_compute; reflexivity. Qed.

Example C39_tuple_example : tmp_name (Indexed 12) = str "field12".
Proof. vm_compute. reflexivity. Qed.
