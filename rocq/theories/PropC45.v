(** C45: how many steps parsing takes.  A step is one look at the next character,
    or at the end of the text; [parse_steps] (Steps.v) counts those of [parse_ast].
    [unclosed] (StepsClosedSpec.v) is how often [/*] occurs in a text without that
    comment being closed. *)

From Coq Require Import NArith PeanoNat List String Lia.
From Verif Require Import Chars Ast Chumsky Spans Grammar Observe Kdl Steps StepsProps
  StepsClosedSpec StepsClosed StepsAccepted.
Import ListNotations.
Local Open Scope string_scope.
Local Open Scope nat_scope.
Local Open Scope list_scope.

(** The steps are those of the parser of the model: leaving out the counts gives the
    parser of documents. *)
Theorem C45_counted : forall Sp (E : env Sp), t_parser (@t_document Sp E) = document_.
Proof. exact @document_timed. Qed.
Print Assumptions C45_counted.

(** No polynomial of the length bounds the steps. *)
Theorem C45_refuted : forall k, exists t, k * (List.length t + 1) ^ k < parse_steps t.
Proof. exact steps_exponential. Qed.
Print Assumptions C45_refuted.

(** Openings of comments that are not closed are what makes it so. *)
Theorem C45_openings : forall n, 2 ^ n <= parse_steps (repeat_text (S n) (str "/*a")).
Proof. exact parse_steps_openings. Qed.
Print Assumptions C45_openings.

(** Not only texts that are rejected take so long. *)
Theorem C45_accepted_refuted : forall k, exists t, accepted t /\ k * (List.length t + 1) ^ k < parse_steps t.
Proof. exact accepted_not_polynomial. Qed.
Print Assumptions C45_accepted_refuted.

Theorem C45_accepted : forall n, reads (repeat_text (S n) (str "/*/*/")) []
  /\ 2 ^ n <= parse_steps (repeat_text (S n) (str "/*/*/")).
Proof. exact accepted_exponential. Qed.
Print Assumptions C45_accepted.

(** Nothing else does: the steps are bounded by a polynomial of the length that is
    doubled with each [/*] that is not closed.  Missing from the statement is a bound
    for every text. *)
Theorem C45_doubled_partial : exists K k, forall t,
  parse_steps t <= K * (List.length t + 3) ^ k * 2 ^ unclosed t.
Proof. exact steps_unclosed. Qed.
Print Assumptions C45_doubled_partial.

Theorem C45_few_unclosed_partial : forall m, exists K k, forall t, unclosed t <= m ->
  parse_steps t <= K * (List.length t + 3) ^ k.
Proof. exact steps_few_unclosed. Qed.
Print Assumptions C45_few_unclosed_partial.

(** What is not counted are the comments of the grammar. *)
Theorem C45_unclosed : forall t, unclosed t = 0 <->
  (forall u w, t = u ++ str "/*" ++ w -> exists b r, block true b /\ str "/*" ++ w = b ++ r).
Proof. exact unclosed_zero. Qed.
Print Assumptions C45_unclosed.

Example C45_example_few :
  unclosed (str "a /* b /* c */ */ { d ""/*"" /-e 1 }") = 1
  /\ parse_steps (str "a /* b /* c */ */ { d ""/*"" /-e 1 }") = 330
  /\ unclosed (str "a /* b /* c */ */ { d /*/ */ /-e 1 }") = 0.
Proof. vm_compute. repeat split; reflexivity. Qed.

Example C45_example_growth :
  map (fun n => parse_steps (repeat_text n (str "/*a"))) [2; 4; 6; 8] = [50; 140; 500; 1940]
  /\ map (fun n => parse_steps (repeat_text n (str "a {"))) [2; 4; 6; 8] = [166; 306; 446; 586].
Proof. vm_compute. split; reflexivity. Qed.
