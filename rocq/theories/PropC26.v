(** C26: decoding a list of nodes. *)

From Coq Require Import NArith ZArith List Bool String Lia.
From Verif Require Import Chars Ast Errors Chumsky Spans Grammar Decode Scalar Containers DecodeSpec DecodeProps.
Import ListNotations.
Local Open Scope list_scope.

(** [one_pass]: every node is decoded once, in order; values in order; the error of
    a failing node is kept and the next one goes on. *)
Theorem C26_pass : forall (Sp A : Type) (d : node_impl Sp A) ns c,
  (forall n c, snd (d n c) <> DPanic) ->
  exists out es c', one_pass d ns c out es c' /\ vec_children d ns c = (c', DOk out).
Proof. exact @vec_children_pass. Qed.
Print Assumptions C26_pass.

(** All the errors of failing nodes are in the context at the end, in order. *)
Theorem C26_errors : forall (Sp A : Type) (d : node_impl Sp A) ns, (forall n, adds_only (d n)) ->
  forall c out es c', one_pass d ns c out es c' ->
  exists l, c_errors c' = c_errors c ++ l /\ subsequence es l.
Proof. exact @pass_errors. Qed.
Print Assumptions C26_errors.

Example C26_example :
  let d := fun n : snode unit => match n_arguments (s_value n) with
                                 | [] => d_err (missing n (str "x")) | _ => d_ok n end in
  let nd := fun args => Spanned tt (Node None (Spanned tt (str "a")) args [] None) in
  let v := Value None (Spanned tt LNull) in
  vec_children d [nd []; nd [v]; nd []; nd [v; v]] context_new
  = (Context [DMissing tt (str "x"); DMissing tt (str "x")] [], DOk [nd [v]; nd [v; v]])
  /\ (forall n, adds_only (d n)).
Proof.
  split; [reflexivity|]. intros n c. destruct (n_arguments (s_value n)); exists []; cbn;
    rewrite app_nil_r; reflexivity.
Qed.
