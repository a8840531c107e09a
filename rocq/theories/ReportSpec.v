(** What the error of a text should look like. *)

From Coq Require Import NArith List Bool String.
From Verif Require Import Chars Ast Errors Spans Decode Report DecodeSpec.
Import ListNotations.
Local Open Scope list_scope.

(** An offset and a length in bytes that mark the characters [s] of [t]. *)
Definition marks (t : text) (m : source_span) (s : text) : Prop :=
  exists p q, t = p ++ s ++ q /\ ss_offset m = byte_len p /\ ss_length m = byte_len s.

(** The bytes that are marked. *)
Definition marked (b : list N) (m : source_span) : list N :=
  firstn (ss_length m) (skipn (ss_offset m) b).

(** A report on [t]: it says something, and at least one place is marked, each with some
    words; what is marked are whole characters. *)
Definition report_on (t : text) (r : report) : Prop :=
  r_message r <> [] /\ r_labels r <> []
  /\ Forall (fun l => fst l <> [] /\ exists s, marks t (snd l) s) (r_labels r).

(** A report on something in [t]: one place is marked, and it is not empty. *)
Definition report_at (t : text) (r : report) : Prop :=
  exists words m s, r_labels r = [(words, m)] /\ words <> [] /\ marks t m s /\ s <> [].

(** The error names the file, holds the whole text, and has reports. *)
Definition error_for (file_name t : text) (e : error) : Prop :=
  e_name e = file_name /\ e_source e = t /\ e_related e <> [].

(** The same error or none on both sides. *)
Definition same_error {A B} (P : A -> B -> Prop) (x : answer A) (y : answer B) : Prop :=
  match x, y with
  | Good a, Good b => P a b
  | Bad e, Bad f => e = f
  | Crash, Crash => True
  | _, _ => False
  end.
