(** C53: a document parsed with line spans is decoded into a document with byte spans,
    and that is the one parsed with byte spans. *)

From Coq Require Import NArith ZArith List Bool String Lia.
From Verif Require Import Chars Ast Errors Chumsky Spans Grammar Kdl Decode Scalar Containers
  DecodeSpec NodeProps.
Import ListNotations.
Local Open Scope list_scope.

(** [width]: the display width of characters, of the crate unicode-width. *)
Theorem C53_line_to_byte : forall width t,
  parse (parse_ast_linespan width t) (vec_children (ast_snode_impl span_of_line)) =
  match parse_ast_linespan width t, parse_ast_span t with
  | Parsed _, Parsed d => Value_of d
  | Rejected errs, _ => Parse_errors errs
  | _, _ => Panic_of
  end.
Proof. exact line_to_byte. Qed.
Print Assumptions C53_line_to_byte.

Example C53_example :
  let t := str "a 1 k=null {" ++ [10%N] ++ str "  (t)b; }" in
  (exists d, parse_ast_linespan (fun _ => Some 1) t = Parsed d)
  /\ match parse (parse_ast_linespan (fun _ => Some 1) t) (vec_children (ast_snode_impl span_of_line)) with
     | Value_of [n] => s_span n = Span 0 22
     | _ => False
     end.
Proof. split; [eexists; vm_compute; reflexivity|vm_compute; reflexivity]. Qed.
