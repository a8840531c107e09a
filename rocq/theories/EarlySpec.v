(** Texts in which the parser never goes back over what it has read: what is said
    about the place of errors in C70 holds for these. *)

From Coq Require Import NArith List Bool String.
From Verif Require Import Chars Kdl.
Import ListNotations.
Local Open Scope N_scope.

(** Where a block comment begins, it ends. *)
Definition comments_end (t : text) : Prop :=
  forall u w, t = u ++ str "/*" ++ w -> exists b r, block true b /\ str "/*" ++ w = b ++ r.

(** Where a raw string begins, it ends. *)
Definition raw_strings_end (t : text) : Prop :=
  forall u n w, t = u ++ [0x72] ++ repeat 0x23 n ++ [0x22] ++ w -> exists v r, w = v ++ raw_close n ++ r.

(** A backslash and the letter u begin the escape of a character. *)
Definition escapes_fit (t : text) : Prop :=
  forall u w, t = u ++ [0x5C; 0x75] ++ w -> exists e v r, escape e v /\ 0x75 :: w = e ++ r.

(** No number with a sign stands before an equals sign. *)
Definition no_signed_name (t : text) : Prop :=
  forall u c d w s, sign_char c -> digit_char 10 d -> Forall ident_char w ->
    t <> u ++ [c; d] ++ w ++ [0x3D] ++ s.

Definition tidy (t : text) : Prop :=
  comments_end t /\ raw_strings_end t /\ escapes_fit t /\ no_signed_name t.
