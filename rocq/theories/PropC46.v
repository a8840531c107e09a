(** C46: spanned values compare by content. *)

From Coq Require Import NArith List Bool String.
From Verif Require Import Chars Ast Errors Chumsky Spans Grammar Kdl SpanOps OrdProps.
Import ListNotations.

(** The spans do not matter. *)
Theorem C46_spans : forall T Sp (eq : T -> T -> bool) pcmp cmp hash (s s' r r' : Sp) (a b : T),
  spanned_eq eq (Spanned s a) (Spanned r b) = spanned_eq eq (Spanned s' a) (Spanned r' b)
  /\ spanned_partial_cmp pcmp (Spanned s a) (Spanned r b) = spanned_partial_cmp pcmp (Spanned s' a) (Spanned r' b)
  /\ spanned_cmp cmp (Spanned s a) (Spanned r b) = spanned_cmp cmp (Spanned s' a) (Spanned r' b)
  /\ spanned_hash hash (Spanned s a) = spanned_hash hash (Spanned s' a).
Proof. exact @spans_do_not_matter. Qed.
Print Assumptions C46_spans.

(** The laws of [Eq], [Ord] and [Hash] carry over. *)
Theorem C46_laws : forall T Sp (eq : T -> T -> bool) cmp hash, lawful eq cmp hash ->
  lawful (T := spanned T Sp) (spanned_eq eq) (spanned_cmp cmp) (spanned_hash hash).
Proof. exact @spanned_lawful. Qed.
Print Assumptions C46_laws.

(** Looking up a property by name finds it whatever its span. *)
Theorem C46_lookup : forall Sp n (m : list (spanned text Sp * value Sp)) v, increasing m ->
  props_get n m = Some v <-> exists k, In (k, v) m /\ s_value k = n.
Proof. exact @get_in. Qed.
Print Assumptions C46_lookup.

Example C46_example : lawful text_eqb text_compare (fun t => t).
Proof. exact text_lawful. Qed.
