(** C54: decoding one node.  [node_decode] is [decode::node]; a [node_impl] is a
    [Decode::decode_node], given the node and the context. *)

From Coq Require Import NArith ZArith List Bool String Lia.
From Verif Require Import Chars Ast Errors Chumsky Spans Grammar Conformance Kdl Decode Scalar Containers
  DecodeSpec DeriveDef Derive DeriveSpec FieldSpec StructSpec HandSpec NodeProps DeriveConformance
  DeriveSample.
Import ListNotations.
Local Open Scope string_scope.
Local Open Scope list_scope.

(** It is the same as decoding the document that is only this node. *)
Theorem C54_document : forall Sp A (d : node_impl Sp A) n,
  parse (Parsed [n]) (vec_children d) =
  match node_decode d n with
  | Decoded v => Value_of [v]
  | Failed es => Decode_errors es
  | DPanicked => Panic_of
  end.
Proof. exact @node_vec. Qed.
Print Assumptions C54_document.

(** There is a value only if no error was reported on the way. *)
Theorem C54_value : forall Sp A (d : node_impl Sp A) n v,
  node_decode d n = Decoded v <-> exists c, d n context_new = (c, DOk v) /\ c_errors c = [].
Proof. exact @node_value. Qed.
Print Assumptions C54_value.

(** All errors are reported: those in the context, and last the one returned. *)
Theorem C54_errors : forall Sp A (d : node_impl Sp A) n es,
  node_decode d n = Failed es <->
  exists c, (exists v, d n context_new = (c, DOk v) /\ es = c_errors c /\ es <> [])
            \/ (exists e, d n context_new = (c, DErr e) /\ es = c_errors c ++ [e]).
Proof. exact @node_failed. Qed.
Print Assumptions C54_errors.

(** A value; an error in the context of a value; one in the context and one returned. *)
Example C54_example :
  node_decode (dr_node job) job_node = Decoded job_value
  /\ (exists c v, dr_node job (first_node (q "job 'a' label='x' { main 'm'; flag 1; }")) context_new = (c, DOk v)
       /\ List.length (c_errors c) = 1)
  /\ (exists c e, dr_node job (first_node (q "job 'a' label='x' { flag 1; }")) context_new = (c, DErr e)
       /\ List.length (c_errors c) = 1
       /\ node_decode (dr_node job) (first_node (q "job 'a' label='x' { flag 1; }"))
          = Failed (c_errors c ++ [e])).
Proof.
  split; [vm_compute; reflexivity|].
  split; eexists; eexists; vm_compute; repeat split; reflexivity.
Qed.
