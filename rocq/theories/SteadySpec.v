(** Decoders that do the same in every context, and nodes in another order. *)

From Coq Require Import NArith List Bool String Permutation.
From Verif Require Import Chars Ast Errors Kdl Decode Scalar Containers DecodeSpec
  DeriveDef Derive DeriveSpec FieldSpec StructSpec HandSpec.
Import ListNotations.
Local Open Scope list_scope.

(** The context with more errors. *)
Definition added {Sp} (es : list (derror Sp)) (c : context Sp) : context Sp :=
  Context (c_errors c ++ es) (c_ext c).

(** In every context the same result and the same new errors. *)
Definition yields {Sp A} (m : dec Sp A) (es : list (derror Sp)) (r : dout Sp A) : Prop :=
  forall c, m c = (added es c, r).

Definition steady {Sp A} (m : dec Sp A) : Prop := exists es r, yields m es r.

(** All implementations for a type are so. *)
Record steady_type {Sp L} (i : tyimpl Sp L) : Prop := SteadyType {
  sy_scalar : forall v, steady (ti_scalar i v);
  sy_node : forall n, steady (ti_node i n);
  sy_span : forall sp, exists es x, forall c, ti_span i sp c = (added es c, x);
  sy_insert_child : forall x n, steady (ti_insert_child i x n);
  sy_insert_property : forall x k v, steady (ti_insert_property i x k v);
}.

(** The same for the implementations that a derive gives. *)
Record steady_derived {Sp L} (d : derived Sp L) : Prop := SteadyDerived {
  syd_node : forall n, steady (dr_node d n);
  syd_children : forall f, dr_children d = Some f -> forall ns, steady (f ns);
  syd_insert_child : forall f, dr_insert_child d = Some f -> forall x n, steady (f x n);
  syd_insert_property :
    forall f, dr_insert_property d = Some f -> forall x k v, steady (f x k v);
}.

(** The same for a scalar implementation. *)
Record steady_scalar {Sp A} (i : scalar_impl Sp A) : Prop := SteadyScalar {
  ss_type_check : forall ty, exists es, forall c, sc_type_check i ty c = added es c;
  ss_raw_decode : forall l, steady (sc_raw_decode i l);
  ss_decode : forall v, steady (sc_decode i v);
}.

(** The same nodes in another order, in which some keep theirs: the nodes of each of the
    [names] among themselves, and the nodes of all other names among themselves. *)
Definition reordered {Sp} (names : list text) (ns ns' : list (snode Sp)) : Prop :=
  (forall name, In name names -> named_nodes name ns = named_nodes name ns')
  /\ let other n := negb (existsb (text_eqb (name_of n)) names) in filter other ns = filter other ns'.

(** The node with other children. *)
Definition with_children {Sp} (n : snode Sp) (ns : list (snode Sp)) : snode Sp :=
  Spanned (s_span n)
    (Node (n_type_name (s_value n)) (n_node_name (s_value n)) (n_arguments (s_value n))
       (n_properties (s_value n))
       match n_children (s_value n) with
       | Some ch => Some (Spanned (s_span ch) ns)
       | None => None
       end).

(** Nodes of different names can be inserted in either order. *)
Definition commuting {Sp X} (f : X -> snode Sp -> dec Sp (bool * X)) : Prop :=
  forall n1 n2, name_of n1 <> name_of n2 -> forall x e1 e2 t1 t2 x1 x2,
  yields (f x n1) e1 (DOk (t1, x1)) -> yields (f x1 n2) e2 (DOk (t2, x2)) ->
  exists x', yields (f x n2) e2 (DOk (t2, x')) /\ yields (f x' n1) e1 (DOk (t1, x2)).

(** So it is with all types of flattened children. *)
Definition flat_commute {Sp L} (kebab : text -> text) (fs : list (src_field Sp L)) : Prop :=
  Forall (fun h => ch_mode h = CmFlatten -> commuting (ti_insert_child (f_impl (ch_field h))))
    (the_children kebab fs).

(** A node of this name is always taken, if nothing fails. *)
Definition takes {Sp X} (f : X -> snode Sp -> dec Sp (bool * X)) (name : text) : Prop :=
  forall x n e t x', name_of n = name -> yields (f x n) e (DOk (t, x')) -> t = true.

(** There is a field for nodes of this name, here or in a flattened struct. *)
Definition claims {Sp L} (h : child Sp L) (name : text) : Prop :=
  match ch_mode h with
  | CmFlatten => takes (ti_insert_child (f_impl (ch_field h))) name
  | _ => ch_name h = name
  end.
Definition has_field {Sp L} (kebab : text -> text) (fs : list (src_field Sp L)) (name : text) : Prop :=
  Exists (fun h => claims h name) (the_children kebab fs).
