(** C25: context values behave as a typed map. *)

From Coq Require Import NArith ZArith List Bool String Lia.
From Verif Require Import Chars Ast Errors Chumsky Spans Grammar Decode Scalar Containers DecodeSpec DecodeProps.
Import ListNotations.
Local Open Scope list_scope.

(** [ops] is any sequence of [set] and [emit_error]. *)
Theorem C25_errors : forall (Sp : Type) (ops : list (ctx_op Sp)) c,
  c_errors (fold_left do_op ops c) = c_errors c ++ emitted ops.
Proof. exact @ctx_errors. Qed.
Print Assumptions C25_errors.

Theorem C25_get : forall (Sp : Type) (ops : list (ctx_op Sp)) ty,
  last_set ty ops (context_get ty (fold_left do_op ops context_new)).
Proof. exact @ctx_get. Qed.
Print Assumptions C25_get.

(** [last_set] determines the value. *)
Theorem C25_unique : forall (Sp : Type) ty (ops : list (ctx_op Sp)) a b,
  last_set ty ops a -> last_set ty ops b -> a = b.
Proof. exact @last_set_fun. Qed.
Print Assumptions C25_unique.

Example C25_example :
  let c := fold_left do_op [Op_set 1 10; Op_emit (DMissing tt []); Op_set 2 20; Op_set 1 11]%N context_new in
  context_get 1 c = Some 11%N /\ context_get 2 c = Some 20%N /\ context_get 3 c = None
  /\ List.length (c_errors c) = 1.
Proof. repeat split. Qed.
