(** Documents put together, for C71. *)

From Coq Require Import NArith List.
From Verif Require Import Chars Ast.
Import ListNotations.
Local Open Scope list_scope.

(** The document in the braces of a node. *)
Definition within (name : text) (D : document unit) : document unit :=
  [Spanned tt (Node None (Spanned tt name) [] [] (Some (Spanned tt D)))].

(** The texts in order, two newlines after each. *)
Fixpoint together (ts : list text) : text :=
  match ts with
  | [] => []
  | t :: ts => t ++ [0x0A; 0x0A]%N ++ together ts
  end.
