(** Texts that could still become a document.

    The grammar of KDL once more, as plain sets of texts: what may follow an
    element does not matter, and a node is always ended by a newline, a comment
    or a semicolon.  The lexical rules for spaces, comments, raw strings, numbers
    and bare identifiers are those of Kdl.v.  It is wider than KDL in four
    places, which are the mistakes after which the parser goes on reading:
    - after "\u" in a string anything may follow;
    - a bare identifier may be an argument;
    - a number or a keyword may be the name of a property;
    - so may a bare identifier that begins with a keyword. *)

From Coq Require Import NArith List String.
From Verif Require Import Chars Ast Errors Spans Kdl.
Import ListNotations.
Local Open Scope N_scope.

Definition lang := text -> Prop.

(** One after the other, either, nothing or one, any number, at least one. *)
Inductive cat (A B : lang) : lang :=
| Cat s t : A s -> B t -> cat A B (s ++ t).

Inductive alt (A B : lang) : lang :=
| Alt_l s : A s -> alt A B s
| Alt_r s : B s -> alt A B s.

Inductive opt (A : lang) : lang :=
| Opt_none : opt A []
| Opt_some s : A s -> opt A s.

Inductive star (A : lang) : lang :=
| Star_nil : star A []
| Star_cons s t : A s -> star A t -> star A (s ++ t).

Definition plus (A : lang) : lang := cat A (star A).

Definition word (s : text) : lang := eq s.
Definition one_of (P : char -> Prop) : lang := fun s => exists c, P c /\ s = [c].

(** ** Space *)

Definition lax_newline : lang :=
  alt (word [0x0D; 0x0A]) (one_of (fun c => In c newline_chars)).

Definition lax_comment : lang :=
  cat (word (str "//")) (cat no_newline lax_newline).

Definition lax_ws : lang := alt (one_of (fun c => In c ws_chars)) (block false).

Definition lax_escline : lang :=
  cat (word [0x5C]) (cat (star lax_ws) (alt lax_comment lax_newline)).

Definition lax_nspace : lang := alt lax_ws lax_escline.

Definition lax_lspace : lang := alt lax_newline (alt lax_ws lax_comment).

Definition lax_terminator : lang :=
  alt lax_newline (alt lax_comment (word [0x3B])).

Definition lax_slashdash : lang := cat (word (str "/-")) (star lax_nspace).

(** ** Strings, names, values *)

(** A character of a string, or a backslash with what follows it. *)
Inductive lax_char : lang :=
| LC_plain c : c <> 0x22 -> c <> 0x5C -> lax_char [c]
| LC_simple c : In c (map fst simple_escapes) -> lax_char [0x5C; c]
| LC_code : lax_char [0x5C; 0x75].

Definition lax_escaped : lang := cat (word [0x22]) (cat (star lax_char) (word [0x22])).

Definition lax_raw : lang := fun s => exists t, raw_text s t.

Definition lax_literal : lang :=
  alt (alt lax_raw lax_escaped)
    (alt (fun s => In s keywords) (fun s => exists l, number_text s l)).

Definition lax_name : lang := alt bare_text lax_escaped.

Definition lax_type : lang := cat (word [0x28]) (cat lax_name (word [0x29])).

Definition lax_value : lang := alt (cat lax_type lax_literal) lax_literal.

(** An argument or a property. *)
Definition lax_item : lang :=
  alt (cat (alt lax_literal bare_text) (opt (cat (word [0x3D]) lax_value)))
      (cat lax_type lax_literal).

Definition lax_items : lang :=
  star (cat (plus lax_nspace) (cat (opt lax_slashdash) lax_item)).

(** ** Nodes *)

(** A node, given what may stand between braces. *)
Definition lax_braces (N : lang) : lang := cat (word [0x7B]) (cat N (word [0x7D])).

Definition lax_children (N : lang) : lang :=
  cat (star lax_nspace) (cat (opt lax_slashdash) (lax_braces N)).

Definition lax_node (N : lang) : lang :=
  cat (opt lax_type) (cat lax_name (cat lax_items
    (cat (opt (lax_children N)) (cat (star lax_nspace) lax_terminator)))).

Definition lax_list (N : lang) : lang :=
  cat (star lax_lspace)
      (star (cat (opt lax_slashdash) (cat (lax_node N) (star lax_lspace)))).

(** A whole document, or what stands between braces. *)
Inductive lax_document : lang :=
| Lax s : lax_list lax_document s -> lax_document s.

(** The beginning of such a document. *)
Definition beginning (p : text) : Prop := exists s, lax_document (p ++ s).

(** ** Errors *)

(** The character goes with the expected thing: a character itself, a letter, a
    newline.  The digit zero is left out: it is listed where a name is expected,
    and is none. *)
Inductive fits : token -> char -> Prop :=
| Fit_char x : x <> 0x30 -> fits (TChar x) x
| Fit_letter c : ident_char c -> ~ digit_char 10 c -> ~ sign_char c -> fits (TKind (str "letter")) c
| Fit_newline c : In c newline_chars -> fits (TKind (str "newline")) c.

(** The span starts after the text [p], which begins the source. *)
Definition starts_after (t : text) (sp : span) (p : text) : Prop :=
  (exists q, t = p ++ q) /\ sp_start sp = byte_len p.
