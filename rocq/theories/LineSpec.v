(** Lines and columns of a place in a text. *)

From Coq Require Import NArith PeanoNat List Bool.
From Verif Require Import Chars Ast Spans Kdl.
Import ListNotations.

(** The number of newlines, with CR LF as one. *)
Inductive lines : text -> nat -> Prop :=
| Lines_none b : no_newline b -> lines b 0
| Lines_more b nl t n : no_newline b -> newline_at nl t -> lines t n ->
    lines (b ++ nl ++ t) (S n).

(** [b] is what follows the last newline of [p]. *)
Definition last_line (p b : text) : Prop :=
  no_newline b
  /\ exists a, p = a ++ b /\ (a = [] \/ exists a' c, a = a' ++ [c] /\ In c newline_chars).

(** The width of a line; a tab counts 8. *)
Definition column (width : char -> option nat) (b : text) : nat :=
  fold_right (fun c n => (if N.eqb c 0x09 then 8
                          else match width c with Some w => w | None => 0 end) + n) 0 b.

(** [lp] is the offset, line and column of a place in [t]. *)
Definition place (width : char -> option nat) (t : text) (lp : linepos) : Prop :=
  exists p r l b, t = p ++ r /\ lines p l /\ last_line p b
    /\ lp = LinePos (byte_len p) l (column width b).

(** All spans of a document. *)
Definition value_spans {Sp} (v : value Sp) : list Sp :=
  match v_type_name v with Some ty => [s_span ty] | None => [] end ++ [s_span (v_literal v)].

Fixpoint node_spans {Sp} (n : node Sp) : list Sp :=
  match n with
  | Node ty nm args props ch =>
      match ty with Some ty => [s_span ty] | None => [] end
      ++ [s_span nm]
      ++ flat_map value_spans args
      ++ flat_map (fun kv => s_span (fst kv) :: value_spans (snd kv)) props
      ++ match ch with
         | Some (Spanned sp l) => sp :: flat_map (fun n => s_span n :: node_spans (s_value n)) l
         | None => []
         end
  end.

Definition document_spans {Sp} (d : document Sp) : list Sp :=
  flat_map (fun n => s_span n :: node_spans (s_value n)) d.
