(** C71: documents can be put together. *)

From Coq Require Import NArith List String Lia.
From Verif Require Import Chars Ast Errors Chumsky Spans Grammar Kdl KdlText Observe ConcatSpec ConcatProps ConcatSample.
Import ListNotations.
Local Open Scope list_scope.

(** [means true t D]: by the KDL grammar the text [t] is the document [D]. Two newlines
    between two such texts give the nodes of the one, then those of the other. *)
Theorem C71_joined : forall t1 t2 D1 D2, means true t1 D1 -> means true t2 D2 ->
  reads (t1 ++ [0x0A; 0x0A]%N ++ t2) (D1 ++ D2).
Proof. exact joined_reads. Qed.
Print Assumptions C71_joined.

(** Any number of texts. *)
Theorem C71_together : forall ts Ds, Forall2 (means true) ts Ds ->
  reads (together ts) (List.concat Ds).
Proof. exact together_reads. Qed.
Print Assumptions C71_together.

(** In the braces of a node of any name, a document becomes its children. *)
Theorem C71_children : forall name t D, means true t D ->
  reads (print_string name ++ str " {" ++ t ++ [0x0A; 0x0A]%N ++ str "}") (within name D).
Proof. exact within_reads. Qed.
Print Assumptions C71_children.

(** One newline is not enough; nor is it that the first text ends in one. *)
Theorem C71_newline_refuted : exists t1 t2 D1 D2 D,
  reads t1 D1 /\ reads t2 D2 /\ reads (t1 ++ [0x0A%N] ++ t2) D /\ D <> D1 ++ D2.
Proof. exact newline_not_enough. Qed.
Print Assumptions C71_newline_refuted.

Theorem C71_line_refuted : exists t1 t2 D1 D2 D,
  reads (t1 ++ [0x0A%N]) D1 /\ reads t2 D2 /\ reads ((t1 ++ [0x0A%N]) ++ t2) D /\ D <> D1 ++ D2
  /\ t1 = str "a \".
Proof. exact end_of_line_not_enough. Qed.
Print Assumptions C71_line_refuted.

(** It is not enough either that the parser accepts both texts. *)
Theorem C71_accepted_refuted : exists t1 t2,
  accepted t1 /\ accepted t2 /\ rejected (t1 ++ [0x0A; 0x0A]%N ++ t2).
Proof. exact accepted_not_enough. Qed.
Print Assumptions C71_accepted_refuted.

Example C71_example : exists D, means true sample_text D /\ D <> [].
Proof. exact sample_means. Qed.
