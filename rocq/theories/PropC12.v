(** C12: every accepted decimal is a decimal number. *)

From Coq Require Import NArith List String Lia.
From Verif Require Import Chars Ast Errors Chumsky Spans Grammar Kdl KdlText Layout Observe Number NumProps.
Import ListNotations.
Local Open Scope list_scope.

(** False as stated: the digits of the exponent may be missing. *)
Theorem C12_decimal_refuted : exists x, reads (str "n 1e") (n_arg (LDecimal x))
  /\ ~ float_text x.
Proof. exact dangling_refuted. Qed.
Print Assumptions C12_decimal_refuted.

(** Every decimal of an accepted text is a valid number or ends in the exponent
    letter (or its sign); full statement: always [float_text x]. *)
Theorem C12_decimal_partial : forall t d x, parse_ast_span t = Parsed d ->
  occurs (LDecimal x) d -> float_text x \/ dangling_exponent x.
Proof. exact decimals_float. Qed.
Print Assumptions C12_decimal_partial.

(** The two cases exclude each other. *)
Theorem C12_exclusive : forall t, float_text t -> dangling_exponent t -> False.
Proof. exact float_not_dangling. Qed.
Print Assumptions C12_exclusive.

Example C12_example : exists d, parse_ast_span (str "a { b k=-1_0.5e+1_0; }") = Parsed d
  /\ occurs (LDecimal (str "-10.5e+10")) d.
Proof.
  eexists. split; [vm_compute; reflexivity|].
  eapply Occ_child; [left; reflexivity|reflexivity|].
  eapply Occ_prop; [left; reflexivity|left; reflexivity|reflexivity].
Qed.
