(** Where decode errors point. *)

From Coq Require Import NArith List Bool String.
From Verif Require Import Chars Ast LineSpec Decode Scalar Containers DeriveDef Derive.
Import ListNotations.

Section Point.
Context {Sp : Type}.

(** The span an error is shown with.  Two kinds have none. *)
Definition error_span (e : derror Sp) : option Sp :=
  match e with
  | DTypeName sp _ _ _ | DScalarKind sp _ _ | DMissing sp _ | DUnexpected sp _ _
  | DConversion sp _ | DUnsupported sp _ => Some sp
  | DMissingNode _ | DCustom _ => None
  end.

(** The spans of a property, of a node and of a list of nodes; those of a value are
    [value_spans] of LineSpec. *)
Definition property_spans (kv : spanned text Sp * value Sp) : list Sp :=
  s_span (fst kv) :: value_spans (snd kv).
Definition snode_spans (n : snode Sp) : list Sp := s_span n :: node_spans (s_value n).
Definition nodes_spans (ns : list (snode Sp)) : list Sp := document_spans ns.

(** The error has a span, and it is one of these. *)
Definition points_at (l : list Sp) (e : derror Sp) : Prop :=
  exists sp, error_span e = Some sp /\ In sp l.

(** Errors are only added to the context, and these and the returned one are of this
    sort. *)
Definition reports {A} (E : derror Sp -> Prop) (m : dec Sp A) : Prop :=
  forall c, (exists es, c_errors (fst (m c)) = c_errors c ++ es /\ Forall E es)
    /\ forall e, snd (m c) = DErr e -> E e.

(** All errors of the implementations for a type point at what they were given. *)
Record pointing {L} (i : tyimpl Sp L) : Prop := Pointing {
  po_scalar : forall v, reports (points_at (value_spans v)) (ti_scalar i v);
  po_node : forall n, reports (points_at (snode_spans n)) (ti_node i n);
  po_span : forall sp, reports (points_at [sp]) (d_pure (ti_span i sp));
  po_insert_child : forall x n, reports (points_at (snode_spans n)) (ti_insert_child i x n);
  po_insert_property :
    forall x k v, reports (points_at (property_spans (k, v))) (ti_insert_property i x k v);
}.

(** The same for a derived decoder.  What is missing from a document has no place. *)
Definition points_or_missing (l : list Sp) (e : derror Sp) : Prop :=
  points_at l e \/ exists m, e = DMissingNode m.

Record pointing_derived {L} (d : derived Sp L) : Prop := PointingDerived {
  pd_node : forall n, reports (points_at (snode_spans n)) (dr_node d n);
  pd_children : forall f, dr_children d = Some f ->
    forall ns, reports (points_or_missing (nodes_spans ns)) (f ns);
  pd_insert_child : forall f, dr_insert_child d = Some f ->
    forall x n, reports (points_at (snode_spans n)) (f x n);
  pd_insert_property : forall f, dr_insert_property d = Some f ->
    forall x k v, reports (points_at (property_spans (k, v))) (f x k v);
}.

(** The same for a scalar implementation. *)
Record pointing_scalar {A} (i : scalar_impl Sp A) : Prop := PointingScalar {
  ps_type_check : forall ty c, exists es,
    c_errors (sc_type_check i ty c) = c_errors c ++ es
    /\ Forall (points_at (match ty with Some t => [s_span t] | None => [] end)) es;
  ps_raw_decode : forall v, reports (points_at [s_span v]) (sc_raw_decode i v);
  ps_decode : forall v, reports (points_at (value_spans v)) (sc_decode i v);
}.

End Point.
