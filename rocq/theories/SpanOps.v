(** Model of the trait implementations of [Spanned] in src/span.rs that look at
    the value and not at the span. *)

From Coq Require Import NArith List Bool.
From Verif Require Import Chars Ast Errors Chumsky.
Import ListNotations.

Section SpannedOps.
Context {T Sp Sp' : Type}.
(** [PartialEq], [PartialOrd], [Ord] and [Hash] of the value type: [hash] is
    what is written to the hasher. *)
Variable eq : T -> T -> bool.
Variable partial_cmp : T -> T -> option comparison.
Variable cmp : T -> T -> comparison.
Variable hash : T -> list N.

(** src/span.rs:355-359. *)
Definition spanned_eq (a : spanned T Sp) (b : spanned T Sp') : bool := eq (s_value a) (s_value b).

(** src/span.rs:361-367. *)
Definition spanned_partial_cmp (a : spanned T Sp) (b : spanned T Sp') : option comparison :=
  partial_cmp (s_value a) (s_value b).

(** src/span.rs:369-373. *)
Definition spanned_cmp (a : spanned T Sp) (b : spanned T Sp') : comparison :=
  cmp (s_value a) (s_value b).

(** src/span.rs:377-383. *)
Definition spanned_hash (a : spanned T Sp) : list N := hash (s_value a).

(** src/span.rs:286-291 [map]. *)
Definition spanned_map {R} (f : T -> R) (a : spanned T Sp) : spanned R Sp :=
  Spanned (s_span a) (f (s_value a)).

End SpannedOps.
