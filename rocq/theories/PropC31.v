(** C31: flag nodes. *)

From Coq Require Import NArith ZArith List Bool String Lia.
From Verif Require Import Chars Ast Errors Chumsky Spans Grammar Decode Scalar Containers DecodeSpec DecodeProps.
Import ListNotations.
Local Open Scope list_scope.

Theorem C31_errors : forall Sp (n : snode Sp) c,
  check_flag_node n c = Context (c_errors c ++ flag_errors (s_value n)) (c_ext c).
Proof. exact @flag_node. Qed.
Print Assumptions C31_errors.

Theorem C31_clean : forall Sp (n : snode Sp) c,
  check_flag_node n c = c <->
  n_arguments (s_value n) = [] /\ n_properties (s_value n) = [] /\ node_children (s_value n) = [].
Proof. exact @flag_clean. Qed.
Print Assumptions C31_clean.

Example C31_example : exists n, parse_ast_span (str "a 1 k=2 3 { b; c; }") = Parsed [n]
  /\ List.length (c_errors (check_flag_node n context_new)) = 5.
Proof. eexists. split; vm_compute; reflexivity. Qed.
