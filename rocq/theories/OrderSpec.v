(** Where an error of the parser begins and ends in the text, and what it means
    that errors are listed in the order of the text. *)

From Coq Require Import List.
From Verif Require Import Ast Errors Spans.
Import ListNotations.

(** An error is shown with one place, or with two when something is not closed:
    where it was opened and where the text ends. *)
Definition starts (e : perror span) : nat :=
  match perror_spans e with s :: _ => sp_start s | [] => 0 end.

Definition stops (e : perror span) : nat :=
  match rev (perror_spans e) with s :: _ => sp_end s | [] => 0 end.

(** One error begins after another, and they have no byte in common. *)
Definition precedes (e e' : perror span) : Prop := starts e < starts e' /\ stops e <= starts e'.

Definition in_order (errs : list (perror span)) : Prop := ForallOrdPairs precedes errs.

(** An error has one place, which is not empty. *)
Definition pointed (e : perror span) : Prop := exists a b, perror_spans e = [Span a b] /\ a < b.

Definition is_unclosed {Sp} (e : perror Sp) : Prop := match e with EUnclosed _ _ _ _ _ _ => True | _ => False end.
