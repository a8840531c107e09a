(** Concrete cases for C62. *)

From Coq Require Import NArith ZArith List Bool String.
From Verif Require Import Chars Ast Errors Chumsky Spans Grammar Conformance Kdl.
From Verif Require Import Decode Scalar Containers DeriveDef Derive StructSpec FlattenSpec
  DeriveConformance DeriveSample UnwrapSample FlattenSample PointerSpec.
Import ListNotations.
Local Open Scope string_scope.
Local Open Scope list_scope.

Lemma doc_wrapped : exists f,
  dr_children doc = Some f
  /\ (exists v, parse (parse_ast_span (q "main 'm'; point 'x'")) f = Value_of v
     /\ parse (parse_ast_span (q "main 'm'; point 'x'")) (wrapped_children Boxed f) = Value_of (Boxed v))
  /\ exists es, parse (parse_ast_span (q "main 1; point 2")) f = Decode_errors es
     /\ List.length es = 2
     /\ parse (parse_ast_span (q "main 1; point 2")) (wrapped_children shared_new f) = Decode_errors es.
Proof.
  assert (K : match dr_children doc with
  | Some f =>
      match parse (parse_ast_span (q "main 'm'; point 'x'")) f with
      | Value_of v => parse (parse_ast_span (q "main 'm'; point 'x'")) (wrapped_children Boxed f)
          = Value_of (Boxed v)
      | _ => False
      end
      /\ match parse (parse_ast_span (q "main 1; point 2")) f with
         | Decode_errors es => List.length es = 2
            /\ parse (parse_ast_span (q "main 1; point 2")) (wrapped_children shared_new f)
               = Decode_errors es
         | _ => False
         end
  | None => False
  end) by (vm_compute; repeat split; reflexivity).
  destruct (dr_children doc) as [f|]; [|contradiction]. exists f. split; [reflexivity|].
  revert K. generalize (parse_ast_span (q "main 'm'; point 'x'")), (parse_ast_span (q "main 1; point 2")).
  intros p1 p2 [K1 K2]. split.
  - destruct (parse p1 f) as [v| | |]; try contradiction. exact (ex_intro _ v (conj eq_refl K1)).
  - destruct (parse p2 f) as [| |es|]; try contradiction.
    exact (ex_intro _ es (conj eq_refl K2)).
Qed.

(** Insertion into the struct with these fields, and what to insert. *)
Definition opts_partial : partial_impl span V :=
  PartialImpl (ti_insert_child (sf_impl opts_field)) (ti_insert_property (sf_impl opts_field)).
Definition opts_value : V := VStruct (str "Opts") (map empty_value opts_fields).
Definition opts_ops : list (insertion span) :=
  [ Child_node (first_node (str "verbose")); Child_node (first_node (q "level 'high'"));
    Child_node (first_node (str "other"));
    Property_of (Spanned (Span 0 1) (str "x")) (Value None (Spanned (Span 2 3) (LString (str "y"))));
    Child_node (first_node (q "target 't'")) ].

Lemma opts_inserted : exists r, snd (insert_all opts_partial opts_ops opts_value context_new)
    = DOk ([true; true; false; false; true], r)
  /\ snd (insert_all (boxed_partial opts_partial) opts_ops (Boxed opts_value) context_new)
     = DOk ([true; true; false; false; true], Boxed r)
  /\ snd (insert_all (shared_partial opts_partial) opts_ops (shared_new opts_value) context_new)
     = DOk ([true; true; false; false; true], shared_new r)
  /\ snd (insert_all (shared_partial opts_partial) opts_ops (Shared 2 opts_value) context_new) = DPanic.
Proof.
  exists (match snd (insert_all opts_partial opts_ops opts_value context_new) with
          | DOk (_, r) => r | _ => VNone end).
  vm_compute. repeat split; reflexivity.
Qed.
