(** Openings of block comments that are not closed, for C45. *)

From Coq Require Import NArith List Bool.
From Verif Require Import Chars.
Import ListNotations.
Local Open Scope N_scope.

(** Whether all of [d] open comments are closed in the text that follows. *)
Fixpoint closes (d : nat) (t : text) : bool :=
  match d with
  | O => true
  | S d' =>
      match t with
      | [] => false
      | c :: t1 =>
          match t1 with
          | [] => false
          | e :: t2 =>
              if (c =? 0x2F) && (e =? 0x2A) then closes (S d) t2
              else if (c =? 0x2A) && (e =? 0x2F) then closes d' t2
              else closes d t1
          end
      end
  end.

(** How often [/*] occurs without that comment being closed in what follows. *)
Fixpoint unclosed (t : text) : nat :=
  match t with
  | [] => 0
  | c :: t1 =>
      match t1 with
      | [] => 0
      | e :: t2 =>
          if (c =? 0x2F) && (e =? 0x2A) && negb (closes 1 t2)
          then S (unclosed t1) else unclosed t1
      end
  end.
