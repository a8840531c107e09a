(** What the spans of a parse error say about the source. *)

From Coq Require Import NArith PeanoNat List Bool String Sorted.
From Verif Require Import Chars Ast Errors Chumsky Spans Kdl.
Import ListNotations.
Local Open Scope list_scope.

(** The span covers exactly the characters [s] of [t]; [s] may be empty. *)
Definition covers (t : text) (sp : span) (s : text) : Prop :=
  exists p q, t = p ++ s ++ q /\ sp = Span (byte_len p) (byte_len (p ++ s)).

(** The span of the end of [t]. *)
Definition end_of (t : text) : span := Span (byte_len t) (byte_len t).

(** The delimiters: the name used in the message, opening and closing. *)
Inductive delimiters : string -> token -> text -> token -> text -> Prop :=
| Del_comment : delimiters "comment" (TToken (str "/*")) (str "/*") (TToken (str "*/")) (str "*/")
| Del_string : delimiters "string" (TChar 0x22%N) (str """") (TChar 0x22%N) (str """")
| Del_raw n : delimiters "raw string" (TOpenRaw n) (str "r" ++ repeat 0x23%N n ++ str """")
                (TCloseRaw n) (str """" ++ repeat 0x23%N n)
| Del_braces : delimiters "curly braces" (TChar 0x7B%N) (str "{") (TChar 0x7D%N) (str "}").

(** What was found is what the span covers. *)
Definition found_at (t : text) (sp : span) (found : token) : Prop :=
  match found with
  | TChar c => covers t sp [c]
  | TToken s => covers t sp s
  | TEoi => sp = end_of t
  | _ => exists s, covers t sp s /\ s <> []
  end.

(** The order in which expected things are listed: characters, words, kinds,
    raw string delimiters, the end of input; within each by code or name. *)
Inductive text_before : text -> text -> Prop :=
| TB_nil y b : text_before [] (y :: b)
| TB_first x a y b : (x < y)%N -> text_before (x :: a) (y :: b)
| TB_later x a b : text_before a b -> text_before (x :: a) (x :: b).

Definition token_key (k : token) : nat * text :=
  match k with
  | TChar c => (0, [c])
  | TToken s => (1, s)
  | TKind s => (2, s)
  | TOpenRaw n => (3, [N.of_nat n])
  | TCloseRaw n => (4, [N.of_nat n])
  | TEoi => (5, [])
  end.

Definition before (a b : token) : Prop :=
  fst (token_key a) < fst (token_key b)
  \/ fst (token_key a) = fst (token_key b) /\ text_before (snd (token_key a)) (snd (token_key b)).

(** What can be expected: a character, a keyword, one of the kinds, the end. *)
Definition nameable (k : token) : Prop :=
  match k with
  | TChar _ | TEoi => True
  | TToken s => In s [str "null"; str "true"; str "false"]
  | TKind s => In s [str "newline"; str "letter"; str "whitespace"; str "identifier"; str "string";
                     str "hexadecimal digit"]
  | TOpenRaw _ | TCloseRaw _ => False
  end.

(** The list of what was expected: in order, nothing twice. *)
Definition tidy (l : list token) : Prop := StronglySorted before l /\ Forall nameable l.

(** The span covers [s], between [p] and [q]. *)
Definition between (t : text) (sp : span) (p s q : text) : Prop :=
  t = p ++ s ++ q /\ sp = Span (byte_len p) (byte_len (p ++ s)).

(** What the label of "found X" says of the place. *)
Inductive labelled_at (t : text) (sp : span) : option string -> token -> Prop :=
| La_char c : covers t sp [c] -> labelled_at t sp None (TChar c)
| La_end : sp = end_of t -> labelled_at t sp None TEoi
| La_escape p c q : between t sp (p ++ [0x5C%N]) [c] q -> ~ In c (map fst simple_escapes) ->
    labelled_at t sp (Some "invalid escape char"%string) (TChar c)
| La_hex p ds c q : between t sp (p ++ str "\u{" ++ ds) [c] q -> Forall (digit_char 16) ds ->
    ~ digit_char 16 c -> labelled_at t sp (Some "unexpected character"%string) (TChar c)
| La_keyword s : covers t sp s -> In s keywords ->
    labelled_at t sp (Some "keyword"%string) (TToken s)
| La_number s l : covers t sp s -> number_text s l ->
    labelled_at t sp (Some "unexpected number"%string) (TKind (str "number"))
| La_name p s q : between t sp p s (0x3D%N :: q) -> In s keywords ->
    labelled_at t sp (Some "unexpected keyword"%string) (TKind (str "keyword")).

(** A message without "found X": the digits of an escape name no character. *)
Inductive message_at (t : text) (sp : span) : option string -> string -> Prop :=
| Ma_code p ds v q : between t sp (p ++ str "\u") (str "{" ++ ds ++ str "}") q ->
    1 <= List.length ds <= 6 -> digits_value 16 ds v -> ~ scalar_value v ->
    message_at t sp (Some "invalid character code"%string)
      "converted integer out of range for `char`".

(** The same with help: the span covers a number before "=", or an identifier. *)
Inductive helped_at (t : text) (sp : span) : option string -> string -> Prop :=
| Ha_number p s l q : between t sp p s (0x3D%N :: q) -> number_text s l ->
    helped_at t sp (Some "unexpected number"%string) "numbers cannot be used as property names"
| Ha_ident s : covers t sp s -> bare_text s ->
    helped_at t sp (Some "unexpected identifier"%string) "identifiers cannot be used as arguments".

(** What was opened is closed: after the text [p], which ends with the opening
    delimiter, comes the rest of such a thing with its closing delimiter. *)
Inductive closed_by (t : text) : token -> text -> text -> Prop :=
| Cl_comment p s q : block_rest true s -> closed_by t (TToken (str "/*")) p (s ++ q)
| Cl_string p s u q : string_body s u -> closed_by t (TChar 0x22%N) p (s ++ 0x22%N :: q)
| Cl_raw n p s q : closed_by t (TOpenRaw n) p (s ++ raw_close n ++ q)
| Cl_braces p s q l :
    @nodes_at span (span_env (end_of t)) true (offset_tokens (byte_len p) s)
      (offset_tokens (byte_len (p ++ s)) (0x7D%N :: q)) l ->
    closed_by t (TChar 0x7B%N) p (s ++ 0x7D%N :: q).

Definition error_right (t : text) (e : perror span) : Prop :=
  match e with
  | EUnexpected label sp found expected => found_at t sp found /\ tidy expected /\ labelled_at t sp label found
  | EUnclosed what at_open open at_end close found =>
      (exists p o c q, delimiters what open o close c /\ between t at_open p o q
         /\ ~ closed_by t open (p ++ o) q)
      /\ at_end = end_of t /\ found = TEoi
  | EMessage label sp m => (exists s, covers t sp s /\ s <> []) /\ message_at t sp label m
  | EMessageHelp label sp m h => (exists s, covers t sp s /\ s <> []) /\ helped_at t sp label m
  end.

(** How a list of things is written: "a", "a or b", "a, b or c", ... *)
Inductive enumerated : list text -> text -> Prop :=
| En_one a : enumerated [a] a
| En_two a b : enumerated [a; b] (a ++ str " or " ++ b)
| En_more a b c l s : enumerated (b :: c :: l) s -> enumerated (a :: b :: c :: l) (a ++ str ", " ++ s).
