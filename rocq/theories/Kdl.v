(** The KDL grammar as inductive relations, written from the KDL 1.0 text and
    independent of the parser.  Rule names of the KDL document are quoted.

    The lexical rules are over texts.  The rules that give spanned elements are
    over lists of tokens (characters with their spans), so that a derivation
    also fixes every span: it reaches from the first to the last token of the
    element.  Where a rule depends on what follows, it has a second argument,
    the rest of the input.

    Known deviations from KDL 1.0, all in the direction of what knuffel does:
    - identifier characters exclude the control characters and U+0021, and
      include U+FEFF; U+0021 may start an identifier;
    - the exponent of a number may lack its digits;
    - a raw string cannot be a node name or a type name;
    - a bare property name must not begin with a keyword. *)

From Coq Require Import NArith PeanoNat List Bool String.
From Verif Require Import Chars Ast Chumsky.
Import ListNotations.
Local Open Scope N_scope.

(** ** Character classes *)

(** "ws": the unicode space characters. *)
Definition ws_chars : list char :=
  [0x09; 0x20; 0xA0; 0x1680; 0x2000; 0x2001; 0x2002; 0x2003; 0x2004; 0x2005;
   0x2006; 0x2007; 0x2008; 0x2009; 0x200A; 0x202F; 0x205F; 0x3000; 0xFEFF].

(** "newline", one character. *)
Definition newline_chars : list char :=
  [0x0D; 0x0A; 0x0C; 0x85; 0x2028; 0x2029].

(** Backslash, slash, parentheses, braces, angle brackets, semicolon, square
    brackets, equals sign, comma and double quote. *)
Definition punctuation : list char :=
  [0x5C; 0x2F; 0x28; 0x29; 0x7B; 0x7D; 0x3C; 0x3E; 0x3B; 0x5B; 0x5D; 0x3D;
   0x2C; 0x22].

(** "identifier-char". *)
Definition ident_char (c : char) : Prop :=
  0x21 < c /\ ~ In c punctuation /\ ~ In c newline_chars
  /\ (In c ws_chars -> c = 0xFEFF).

(** [digit_of r c d]: the character [c] is a digit with value [d] in radix
    [r]. *)
Definition digit_of (r : N) (c : char) (d : N) : Prop :=
  d < r /\ (nth_error (str "0123456789abcdef") (N.to_nat d) = Some c
            \/ nth_error (str "0123456789ABCDEF") (N.to_nat d) = Some c).

Definition digit_char (r : N) (c : char) : Prop := exists d, digit_of r c d.

(** "identifier-char - digit". *)
Definition ident_start (c : char) : Prop :=
  (c = 0x21 \/ ident_char c) /\ ~ digit_char 10 c.

Definition sign_char (c : char) : Prop := c = 0x2B \/ c = 0x2D.

(** ** Space *)

(** "newline": CR LF counts as one. *)
Inductive newline_at : text -> text -> Prop :=
| NL_crlf rest : newline_at [0x0D; 0x0A] rest
| NL_cr rest : hd_error rest <> Some 0x0A -> newline_at [0x0D] rest
| NL_one c rest : In c newline_chars -> c <> 0x0D -> newline_at [c] rest.

Definition no_newline (t : text) : Prop :=
  Forall (fun c => ~ In c newline_chars) t.

(** "single-line-comment". *)
Inductive line_comment_at : text -> text -> Prop :=
| LC_line body nl rest : no_newline body -> newline_at nl rest ->
    line_comment_at (str "//" ++ body ++ nl) rest
| LC_eof body : no_newline body -> line_comment_at (str "//" ++ body) [].

(** "multi-line-comment" and "commented-block".  With [strict], a slash followed
    by a star inside a comment always begins a nested comment. *)
Inductive block (strict : bool) : text -> Prop :=
| Block t : block_rest strict t -> block strict (str "/*" ++ t)
with block_rest (strict : bool) : text -> Prop :=
| BR_end : block_rest strict (str "*/")
| BR_nested s t : block strict s -> block_rest strict t ->
    block_rest strict (s ++ t)
| BR_char c t : block_rest strict t -> c <> 0x2A ->
    (strict = true -> c = 0x2F -> hd_error t <> Some 0x2A) ->
    block_rest strict (c :: t)
| BR_star t : block_rest strict t -> hd_error t <> Some 0x2F ->
    block_rest strict (0x2A :: t).

(** Any number of elements, each followed by the next ones and the rest. *)
Inductive many (R : text -> text -> Prop) : text -> text -> Prop :=
| Many_nil rest : many R [] rest
| Many_cons s t rest : R s (t ++ rest) -> many R t rest ->
    many R (s ++ t) rest.

(** "ws". *)
Inductive ws_at (strict : bool) : text -> text -> Prop :=
| WS_char c rest : In c ws_chars -> ws_at strict [c] rest
| WS_block s rest : block strict s -> ws_at strict s rest.

(** "node-space"; "escline". *)
Inductive nspace_at (strict : bool) : text -> text -> Prop :=
| NS_ws s rest : ws_at strict s rest -> nspace_at strict s rest
| NS_esc_comment s t rest : many (ws_at strict) s (t ++ rest) ->
    line_comment_at t rest -> nspace_at strict (0x5C :: s ++ t) rest
| NS_esc_newline s t rest : many (ws_at strict) s (t ++ rest) ->
    newline_at t rest -> nspace_at strict (0x5C :: s ++ t) rest.

(** "linespace". *)
Inductive lspace_at (strict : bool) : text -> text -> Prop :=
| LS_newline s rest : newline_at s rest -> lspace_at strict s rest
| LS_ws s rest : ws_at strict s rest -> lspace_at strict s rest
| LS_comment s rest : line_comment_at s rest -> lspace_at strict s rest.

(** "node-terminator". *)
Inductive terminator_at : text -> text -> Prop :=
| Term_newline s rest : newline_at s rest -> terminator_at s rest
| Term_comment s rest : line_comment_at s rest -> terminator_at s rest
| Term_semicolon rest : terminator_at [0x3B] rest
| Term_eof : terminator_at [] [].

(** ** Strings *)

(** "escape", the part after the backslash. *)
Definition simple_escapes : list (char * char) :=
  [(0x22, 0x22); (0x5C, 0x5C); (0x2F, 0x2F); (0x62, 0x08); (0x66, 0x0C);
   (0x6E, 0x0A); (0x72, 0x0D); (0x74, 0x09)].

(** [digits_value r t n]: [t] is the writing of [n] in radix [r], most
    significant digit first. *)
Inductive digits_value (r : N) : text -> N -> Prop :=
| DV_nil : digits_value r [] 0
| DV_snoc t c n d : digits_value r t n -> digit_of r c d ->
    digits_value r (t ++ [c]) (n * r + d).

(** Unicode scalar values. *)
Definition scalar_value (n : N) : Prop :=
  n <= 0x10FFFF /\ ~ (0xD800 <= n /\ n <= 0xDFFF).

Inductive escape : text -> char -> Prop :=
| Esc_simple c v : In (c, v) simple_escapes -> escape [c] v
| Esc_unicode ds v : (1 <= List.length ds <= 6)%nat -> digits_value 16 ds v ->
    scalar_value v -> escape (str "u{" ++ ds ++ str "}") v.

(** "character", repeated: the source and the characters it denotes. *)
Inductive string_body : text -> text -> Prop :=
| SB_nil : string_body [] []
| SB_char c s t : c <> 0x22 -> c <> 0x5C -> string_body s t ->
    string_body (c :: s) (c :: t)
| SB_escape e v s t : escape e v -> string_body s t ->
    string_body (0x5C :: e ++ s) (v :: t).

(** "escaped-string". *)
Inductive escaped_text : text -> text -> Prop :=
| Escaped s t : string_body s t -> escaped_text (0x22 :: s ++ [0x22]) t.

Definition prefix (a b : text) : Prop := exists c, b = a ++ c.

(** The closing delimiter of a raw string. *)
Definition raw_close (n : nat) : text := 0x22 :: repeat 0x23 n.

(** "raw-string": the closing delimiter does not occur earlier. *)
Inductive raw_text : text -> text -> Prop :=
| Raw n t :
    (forall t1 t2, t = t1 ++ t2 -> t2 <> [] -> ~ prefix (raw_close n) (t2 ++ raw_close n)) ->
    raw_text (0x72 :: repeat 0x23 n ++ [0x22] ++ t ++ raw_close n) t.

(** "string". *)
Inductive string_text : text -> text -> Prop :=
| ST_raw s t : raw_text s t -> string_text s t
| ST_escaped s t : escaped_text s t -> string_text s t.

(** ** Numbers *)

(** "sign", optional. *)
Inductive opt_sign_text : text -> Prop :=
| OS_none : opt_sign_text []
| OS_some c : sign_char c -> opt_sign_text [c].

Definition digit_or_underscore (r : N) (c : char) : Prop :=
  c = 0x5F \/ digit_char r c.

(** "integer" and the like: a digit, then digits and underscores. *)
Inductive integer_text (r : N) : text -> Prop :=
| Integer d ds : digit_char r d -> Forall (digit_or_underscore r) ds ->
    integer_text r (d :: ds).

(** The text without underscores. *)
Inductive stripped : text -> text -> Prop :=
| Strip_nil : stripped [] []
| Strip_underscore s t : stripped s t -> stripped (0x5F :: s) t
| Strip_char c s t : c <> 0x5F -> stripped s t -> stripped (c :: s) (c :: t).

(** "hex", "octal" and "binary": letter, radix. *)
Definition radix_prefixes : list (char * N * radix) :=
  [(0x62, 2, Bin); (0x6F, 8, Oct); (0x78, 16, Hex)].

(** "'.' integer", optional. *)
Inductive fraction_text : text -> Prop :=
| Frac_none : fraction_text []
| Frac_some t : integer_text 10 t -> fraction_text (0x2E :: t).

(** "exponent", optional; the digits may be missing. *)
Inductive exponent_text : text -> Prop :=
| Exp_none : exponent_text []
| Exp_some e sg ds : e = 0x65 \/ e = 0x45 -> opt_sign_text sg ->
    Forall (digit_or_underscore 10) ds -> exponent_text (e :: sg ++ ds).

(** "number". *)
Inductive number_text : text -> literal -> Prop :=
| Num_radix sg x n r s t : opt_sign_text sg -> In (x, n, r) radix_prefixes ->
    integer_text n s -> stripped s t ->
    number_text (sg ++ 0x30 :: x :: s) (LInt r (sg ++ t))
| Num_int sg s t : opt_sign_text sg -> integer_text 10 s -> stripped s t ->
    number_text (sg ++ s) (LInt Dec (sg ++ t))
| Num_decimal sg s f e t : opt_sign_text sg -> integer_text 10 s ->
    fraction_text f -> exponent_text e -> f ++ e <> [] ->
    stripped (s ++ f ++ e) t ->
    number_text (sg ++ s ++ f ++ e) (LDecimal (sg ++ t)).

(** ** Identifiers, literals, type names *)

Definition keywords : list text := [str "true"; str "false"; str "null"].

(** "bare-identifier". *)
Inductive bare_text : text -> Prop :=
| Bare_sign c : sign_char c -> bare_text [c]
| Bare_signed c d s : sign_char c -> ident_start d -> Forall ident_char s ->
    bare_text (c :: d :: s)
| Bare_plain d s : ident_start d -> ~ sign_char d -> Forall ident_char s ->
    ~ In (d :: s) keywords -> bare_text (d :: s).

Definition sign_text (s : text) : Prop := exists c, sign_char c /\ s = [c].

(** A bare identifier is as long as possible. *)
Definition bare_end (s rest : text) : Prop :=
  match rest with
  | [] => True
  | c :: _ => (sign_text s -> ~ ident_start c) /\ (~ sign_text s -> ~ ident_char c)
  end.

(** "identifier". *)
Inductive ident_at : text -> text -> text -> Prop :=
| ID_bare s rest : bare_text s -> bare_end s rest -> ident_at s rest s
| ID_escaped s rest t : escaped_text s t -> ident_at s rest t.

(** "keyword" and "value", the untyped part. *)
Inductive literal_text : text -> literal -> Prop :=
| Lit_string s t : string_text s t -> literal_text s (LString t)
| Lit_null : literal_text (str "null") LNull
| Lit_true : literal_text (str "true") (LBool true)
| Lit_false : literal_text (str "false") (LBool false)
| Lit_number s l : number_text s l -> literal_text s l.

(** The type name that a text denotes. *)
Definition type_names : list (text * builtin) :=
  [(str "u8", U8); (str "i8", I8); (str "u16", U16); (str "i16", I16);
   (str "u32", U32); (str "i32", I32); (str "u64", U64); (str "i64", I64);
   (str "f32", F32); (str "f64", F64); (str "base64", Base64)].

Inductive names_type : text -> typename -> Prop :=
| NT_builtin t b : In (t, b) type_names -> names_type t (Builtin b)
| NT_custom t : ~ In t (map fst type_names) -> names_type t (Custom t).

(** "type". *)
Inductive type_text : text -> typename -> Prop :=
| Type_name s n ty : ident_at s [0x29] n -> names_type n ty ->
    type_text (0x28 :: s ++ [0x29]) ty.

(** The name of a property: any string, or a bare identifier that does not begin
    with a keyword. *)
Inductive key_text : text -> text -> Prop :=
| Key_string s t : string_text s t -> key_text s t
| Key_bare s : bare_text s -> (forall k, In k keywords -> ~ prefix k s) ->
    key_text s s.

(** ** Spanned elements *)

Section Tokens.
Context {Sp : Type} {E : env Sp}.
Variable strict : bool.

Notation toks := (toks Sp).

Definition chars (s : toks) : text := map fst s.

(** The span of a list of tokens: from the first to the last. *)
Definition span_of (s : toks) : Sp :=
  match s with
  | [] => sp_eoi
  | (_, a) :: s' => sp_join a (snd (last s (0, a)))
  end.

(** A run of "node-space" is as long as possible: what follows is not a space
    character (which matters for U+FEFF only). *)
Definition not_ws (rest : text) : Prop :=
  match rest with [] => True | c :: _ => ~ In c ws_chars end.

Definition nspaces (s rest : toks) : Prop :=
  many (nspace_at strict) (chars s) (chars rest).
Definition lspaces (s rest : toks) : Prop :=
  many (lspace_at strict) (chars s) (chars rest).

(** "value". *)
Inductive value_at : toks -> value Sp -> Prop :=
| Val_plain s l : literal_text (chars s) l ->
    value_at s (Value None (Spanned (span_of s) l))
| Val_typed st s ty l : type_text (chars st) ty -> literal_text (chars s) l ->
    value_at (st ++ s)
      (Value (Some (Spanned (span_of st) ty)) (Spanned (span_of s) l)).

(** What an element of a node contributes. *)
Inductive entry :=
| Argument (v : value Sp)
| Property (k : spanned text Sp) (v : value Sp)
| Nothing.

(** "prop | value". *)
Inductive plain_item_at : toks -> entry -> Prop :=
| Item_arg s v : value_at s v -> plain_item_at s (Argument v)
| Item_prop sk e s k v : key_text (chars sk) k -> fst e = 0x3D ->
    value_at s v ->
    plain_item_at (sk ++ e :: s) (Property (Spanned (span_of sk) k) v).

(** A slash and a dash, then "node-space" any number of times. *)
Inductive slashdash_at : toks -> toks -> Prop :=
| Slashdash a b s rest : fst a = 0x2F -> fst b = 0x2D -> nspaces s rest ->
    not_ws (chars rest) -> slashdash_at (a :: b :: s) rest.

(** "node-prop-or-arg". *)
Inductive item_at : toks -> toks -> entry -> Prop :=
| Item_plain s rest i : plain_item_at s i -> item_at s rest i
| Item_skipped d s rest i : slashdash_at d (s ++ rest) -> plain_item_at s i ->
    item_at (d ++ s) rest Nothing.

(** "node-space" (at least once) and "node-prop-or-arg", any number of times. *)
Inductive items_at : toks -> toks -> list entry -> Prop :=
| Items_nil rest : items_at [] rest []
| Items_cons sp s t rest i l : sp <> [] -> nspaces sp (s ++ t ++ rest) ->
    not_ws (chars (s ++ t ++ rest)) ->
    item_at s (t ++ rest) i -> items_at t rest l ->
    items_at (sp ++ s ++ t) rest (i :: l).

(** The arguments and the properties, in the order they are written. *)
Fixpoint arguments_of (l : list entry) : list (value Sp) :=
  match l with
  | [] => []
  | Argument v :: l' => v :: arguments_of l'
  | _ :: l' => arguments_of l'
  end.

Fixpoint properties_of (l : list entry)
  : list (spanned text Sp * value Sp) :=
  match l with
  | [] => []
  | Property k v :: l' => (k, v) :: properties_of l'
  | _ :: l' => properties_of l'
  end.

Definition key_of (kv : spanned text Sp * value Sp) : text := s_value (fst kv).

(** Strictly increasing names. *)
Inductive increasing : list (spanned text Sp * value Sp) -> Prop :=
| Inc_nil : increasing []
| Inc_cons kv l : increasing l ->
    (forall kv', In kv' l -> text_compare (key_of kv) (key_of kv') = Lt) ->
    increasing (kv :: l).

(** [(k, v)] is what the written list says about one name: the key is the first
    one written, the value the last one. *)
Definition effective (l : list (spanned text Sp * value Sp))
    (kv : spanned text Sp * value Sp) : Prop :=
  exists before1 v1 after1 before2 k2 after2,
    l = before1 ++ (fst kv, v1) :: after1
    /\ (forall x, In x before1 -> key_of x <> key_of kv)
    /\ l = before2 ++ (k2, snd kv) :: after2
    /\ s_value k2 = key_of kv
    /\ (forall x, In x after2 -> key_of x <> key_of kv).

(** The properties of a node, given those written. *)
Definition property_map (l m : list (spanned text Sp * value Sp)) : Prop :=
  increasing m /\ forall kv, In kv m <-> effective l kv.

Inductive opt_type_at : toks -> option (spanned typename Sp) -> Prop :=
| OT_none : opt_type_at [] None
| OT_some s ty : type_text (chars s) ty ->
    opt_type_at s (Some (Spanned (span_of s) ty)).

(** "node", without a leading "/-". *)
Inductive node_at : toks -> toks -> node Sp -> Prop :=
| Node_ st sn si sc ss sm rest ty nm l ps ch :
    opt_type_at st ty ->
    ident_at (chars sn) (chars (si ++ sc ++ ss ++ sm ++ rest)) nm ->
    items_at si (sc ++ ss ++ sm ++ rest) l ->
    children_at sc (ss ++ sm ++ rest) ch ->
    nspaces ss (sm ++ rest) ->
    terminator_at (chars sm) (chars rest) ->
    property_map (properties_of l) ps ->
    node_at (st ++ sn ++ si ++ sc ++ ss ++ sm) rest
      (Node ty (Spanned (span_of sn) nm) (arguments_of l) ps ch)

(** "node-space" any number of times and "node-children", optional. *)
with children_at : toks -> toks
    -> option (spanned (list (snode Sp)) Sp) -> Prop :=
| Ch_none rest : children_at [] rest None
| Ch_some sp b rest l : nspaces sp (b ++ rest) -> braces_at b rest l ->
    children_at (sp ++ b) rest (Some (Spanned (span_of b) l))
| Ch_skipped sp d b rest l : nspaces sp (d ++ b ++ rest) ->
    slashdash_at d (b ++ rest) -> braces_at b rest l ->
    children_at (sp ++ d ++ b) rest None

(** "'{' nodes '}'". *)
with braces_at : toks -> toks -> list (snode Sp) -> Prop :=
| Braces o s c rest l : fst o = 0x7B -> fst c = 0x7D ->
    nodes_at s (c :: rest) l -> braces_at (o :: s ++ [c]) rest l

(** "nodes": linespace, then nodes each followed by linespace. *)
with nodes_at : toks -> toks -> list (snode Sp) -> Prop :=
| Nodes sp s rest l : lspaces sp (s ++ rest) ->
    node_list_at s rest l -> nodes_at (sp ++ s) rest l

with node_list_at : toks -> toks -> list (snode Sp) -> Prop :=
| NL_nil rest : node_list_at [] rest []
| NL_node s sp t rest n l : not_ws (chars s) ->
    node_at s (sp ++ t ++ rest) n ->
    lspaces sp (t ++ rest) -> node_list_at t rest l ->
    node_list_at (s ++ sp ++ t) rest (Spanned (span_of s) n :: l)
| NL_skipped d s sp t rest n l :
    slashdash_at d (s ++ sp ++ t ++ rest) ->
    node_at s (sp ++ t ++ rest) n ->
    lspaces sp (t ++ rest) -> node_list_at t rest l ->
    node_list_at (d ++ s ++ sp ++ t) rest l.

(** A whole document. *)
Definition document_at (s : toks) (d : document Sp) : Prop := nodes_at s [] d.

End Tokens.
