(** What it means that [Box], [Arc] and [Rc] change nothing. *)

From Coq Require Import NArith List.
From Verif Require Import Chars Ast Errors Chumsky Decode Containers.
Import ListNotations.

Definition outcome_map {Sp A B} (f : A -> B) (o : outcome_of Sp A) : outcome_of Sp B :=
  match o with
  | Value_of a => Value_of (f a)
  | Parse_errors es => Parse_errors es
  | Decode_errors es => Decode_errors es
  | Panic_of => Panic_of
  end.

Definition decoded_map {Sp A B} (f : A -> B) (o : decoded Sp A) : decoded Sp B :=
  match o with
  | Decoded a => Decoded (f a)
  | Failed es => Failed es
  | DPanicked => DPanicked
  end.

(** A value is given one node or property after the other, up to the first error: which
    ones it takes, and what becomes of it. *)
Inductive insertion (Sp : Type) :=
| Child_node (n : snode Sp)
| Property_of (k : spanned text Sp) (v : value Sp).
Arguments Child_node {Sp}.
Arguments Property_of {Sp}.

Fixpoint insert_all {Sp A} (i : partial_impl Sp A) (ops : list (insertion Sp)) (x : A)
  : context Sp -> context Sp * dout Sp (list bool * A) :=
  fun c =>
  match ops with
  | [] => (c, DOk ([], x))
  | op :: ops' =>
      match (match op with
             | Child_node n => pi_insert_child i x n c
             | Property_of k v => pi_insert_property i x k v c
             end) with
      | (c', DOk (t, x')) =>
          match insert_all i ops' x' c' with
          | (c'', DOk (ts, x'')) => (c'', DOk (t :: ts, x''))
          | (c'', DErr e) => (c'', DErr e)
          | (c'', DPanic) => (c'', DPanic)
          end
      | (c', DErr e) => (c', DErr e)
      | (c', DPanic) => (c', DPanic)
      end
  end.
