(** Documents that are well-formed but for defects the parser can recover from,
    written from the KDL grammar and independent of the parser.

    There are two such defects: a bad [\u] escape in a string, and a bare
    identifier where an argument should be.  Each relation follows the rule of
    the same name in Kdl.v; in place of the value of the element it has the list
    of the errors that its defects call for, in the order of the text. *)

From Coq Require Import NArith PeanoNat List Bool String.
From Verif Require Import Chars Ast Errors Chumsky Spans Kdl.
Import ListNotations.
Local Open Scope N_scope.
Local Open Scope list_scope.

Section Marred.
Context {Sp : Type} {E : env Sp}.

Notation toks := (toks Sp).

(** ** Strings *)

(** Where reading goes on after a bad escape: a closing brace, a quote or a
    backslash, whichever comes first. *)
Definition resumes_at (c : char) : Prop := c = 0x7D \/ c = 0x22 \/ c = 0x5C.

(** [bad_code t e]: the text [t] after [\u] does not begin with a brace, one to
    six hexadecimal digits of the code of a character, and a brace; [e] is the
    error about the first character that is not as it should be, or about the
    whole if only the code is wrong. *)
Inductive bad_code : toks -> perror Sp -> Prop :=
| BC_open c sp t : c <> 0x7B ->
    bad_code ((c, sp) :: t) (EUnexpected None sp (TChar c) [TChar 0x7B])
| BC_first o c sp t : fst o = 0x7B -> ~ digit_char 16 c ->
    bad_code (o :: (c, sp) :: t)
      (EUnexpected (Some "unexpected character"%string) sp (TChar c)
         [TKind (str "hexadecimal digit")])
| BC_next o ds c sp t : fst o = 0x7B -> (1 <= List.length ds <= 5)%nat ->
    Forall (digit_char 16) (chars ds) -> ~ digit_char 16 c -> c <> 0x7D ->
    bad_code (o :: ds ++ (c, sp) :: t)
      (EUnexpected None sp (TChar c) [TChar 0x7D; TKind (str "hexadecimal digit")])
| BC_close o ds c sp t : fst o = 0x7B -> List.length ds = 6%nat ->
    Forall (digit_char 16) (chars ds) -> c <> 0x7D ->
    bad_code (o :: ds ++ (c, sp) :: t)
      (EUnexpected None sp (TChar c) [TChar 0x7D])
| BC_value o ds c t n : fst o = 0x7B -> fst c = 0x7D ->
    (1 <= List.length ds <= 6)%nat ->
    digits_value 16 (chars ds) n -> ~ scalar_value n ->
    bad_code (o :: ds ++ c :: t)
      (EMessage (Some "invalid character code"%string) (span_of (o :: ds ++ [c]))
         "converted integer out of range for `char`").

(** The characters of a string, and what follows them. *)
Inductive m_body : toks -> toks -> list (perror Sp) -> Prop :=
| MB_nil rest : m_body [] rest []
| MB_char c s rest es : fst c <> 0x22 -> fst c <> 0x5C -> m_body s rest es ->
    m_body (c :: s) rest es
| MB_escape b x s rest v es : fst b = 0x5C -> escape (chars x) v ->
    m_body s rest es -> m_body (b :: x ++ s) rest es
| MB_bad b u x s rest e es : fst b = 0x5C -> fst u = 0x75 ->
    Forall (fun c => ~ resumes_at c) (chars x) ->
    (exists c t, chars (s ++ rest) = c :: t /\ resumes_at c) ->
    bad_code (x ++ s ++ rest) e ->
    m_body s rest es -> m_body (b :: u :: x ++ s) rest (e :: es).

Inductive m_string : toks -> list (perror Sp) -> Prop :=
| M_string a s b es : fst a = 0x22 -> fst b = 0x22 -> m_body s [b] es ->
    m_string (a :: s ++ [b]) es.

(** ** Names and values *)

Inductive m_ident : toks -> toks -> list (perror Sp) -> Prop :=
| MN_sound s rest n : ident_at (chars s) (chars rest) n -> m_ident s rest []
| MN_marred s rest es : m_string s es -> m_ident s rest es.

Inductive m_literal : toks -> list (perror Sp) -> Prop :=
| ML_sound s l : literal_text (chars s) l -> m_literal s []
| ML_marred s es : m_string s es -> m_literal s es.

Inductive m_key : toks -> list (perror Sp) -> Prop :=
| MK_sound s k : key_text (chars s) k -> m_key s []
| MK_marred s es : m_string s es -> m_key s es.

Inductive m_type : toks -> list (perror Sp) -> Prop :=
| M_type o s c es : fst o = 0x28 -> fst c = 0x29 -> m_ident s [c] es ->
    m_type (o :: s ++ [c]) es.

Inductive m_value : toks -> list (perror Sp) -> Prop :=
| MV_plain s es : m_literal s es -> m_value s es
| MV_typed st s es1 es2 : m_type st es1 -> m_literal s es2 ->
    m_value (st ++ s) (es1 ++ es2).

(** ** Elements of nodes *)

(** The error about a bare identifier used as an argument. *)
Definition bare_argument (s : toks) : perror Sp :=
  EMessageHelp (Some "unexpected identifier"%string) (span_of s)
    "identifiers cannot be used as arguments"
    "consider enclosing in double quotes ""..""".

Inductive m_plain : toks -> toks -> list (perror Sp) -> Prop :=
| MP_arg s rest es : m_value s es -> m_plain s rest es
| MP_prop sk e s rest es1 es2 : m_key sk es1 -> fst e = 0x3D -> m_value s es2 ->
    m_plain (sk ++ e :: s) rest (es1 ++ es2)
| MP_bare s rest : bare_text (chars s) -> bare_end (chars s) (chars rest) ->
    (forall k, In k keywords -> ~ prefix k (chars s)) ->
    m_plain s rest [bare_argument s].

Inductive m_item : toks -> toks -> list (perror Sp) -> Prop :=
| MI_plain s rest es : m_plain s rest es -> m_item s rest es
| MI_skipped d s rest es : slashdash_at true d (s ++ rest) -> m_plain s rest es ->
    m_item (d ++ s) rest es.

Inductive m_items : toks -> toks -> list (perror Sp) -> Prop :=
| MIs_nil rest : m_items [] rest []
| MIs_cons sp s t rest es1 es2 : sp <> [] -> nspaces true sp (s ++ t ++ rest) ->
    not_ws (chars (s ++ t ++ rest)) ->
    m_item s (t ++ rest) es1 -> m_items t rest es2 ->
    m_items (sp ++ s ++ t) rest (es1 ++ es2).

Inductive m_opt_type : toks -> list (perror Sp) -> Prop :=
| MO_none : m_opt_type [] []
| MO_some s es : m_type s es -> m_opt_type s es.

(** ** Nodes *)

Inductive m_node : toks -> toks -> list (perror Sp) -> Prop :=
| M_node st sn si sc ss sm rest e1 e2 e3 e4 :
    m_opt_type st e1 ->
    m_ident sn (si ++ sc ++ ss ++ sm ++ rest) e2 ->
    m_items si (sc ++ ss ++ sm ++ rest) e3 ->
    m_children sc (ss ++ sm ++ rest) e4 ->
    nspaces true ss (sm ++ rest) ->
    terminator_at (chars sm) (chars rest) ->
    m_node (st ++ sn ++ si ++ sc ++ ss ++ sm) rest (e1 ++ e2 ++ e3 ++ e4)

with m_children : toks -> toks -> list (perror Sp) -> Prop :=
| MC_none rest : m_children [] rest []
| MC_some sp b rest es : nspaces true sp (b ++ rest) -> m_braces b rest es ->
    m_children (sp ++ b) rest es
| MC_skipped sp d b rest es : nspaces true sp (d ++ b ++ rest) ->
    slashdash_at true d (b ++ rest) -> m_braces b rest es ->
    m_children (sp ++ d ++ b) rest es

with m_braces : toks -> toks -> list (perror Sp) -> Prop :=
| M_braces o s c rest es : fst o = 0x7B -> fst c = 0x7D ->
    m_nodes s (c :: rest) es -> m_braces (o :: s ++ [c]) rest es

with m_nodes : toks -> toks -> list (perror Sp) -> Prop :=
| M_nodes sp s rest es : lspaces true sp (s ++ rest) ->
    m_node_list s rest es -> m_nodes (sp ++ s) rest es

with m_node_list : toks -> toks -> list (perror Sp) -> Prop :=
| MNL_nil rest : m_node_list [] rest []
| MNL_node s sp t rest e1 e2 : not_ws (chars s) ->
    m_node s (sp ++ t ++ rest) e1 ->
    lspaces true sp (t ++ rest) -> m_node_list t rest e2 ->
    m_node_list (s ++ sp ++ t) rest (e1 ++ e2)
| MNL_skipped d s sp t rest e1 e2 :
    slashdash_at true d (s ++ sp ++ t ++ rest) ->
    m_node s (sp ++ t ++ rest) e1 ->
    lspaces true sp (t ++ rest) -> m_node_list t rest e2 ->
    m_node_list (d ++ s ++ sp ++ t) rest (e1 ++ e2).

(** A whole document and the errors its defects call for. *)
Definition marred (s : toks) (es : list (perror Sp)) : Prop := m_nodes s [] es.

End Marred.

(** ** Texts *)

(** The characters of a text with their byte spans; [p] is what comes before. *)
Inductive with_offsets : text -> text -> toks span -> Prop :=
| WO_nil p : with_offsets p [] []
| WO_cons p c t ts : with_offsets (p ++ [c]) t ts ->
    with_offsets p (c :: t) ((c, Span (byte_len p) (byte_len (p ++ [c]))) :: ts).

(** A span from the start of one to the end of another. *)
Definition text_env (t : text) : env span := span_env (Span (byte_len t) (byte_len t)).

(** A text and the errors its defects call for. *)
Definition marred_text (t : text) (es : list (perror span)) : Prop :=
  exists ts, with_offsets [] t ts /\ @marred span (text_env t) ts es.
