(** What error messages may contain. *)

From Coq Require Import NArith List Bool String.
From Verif Require Import Chars Ast Errors Spans Kdl ErrSpec Decode ErrorText DeriveDef Derive FieldSpec StructSpec
  UnwrapSpec HandSpec PointSpec Containers.
Import ListNotations.
Local Open Scope N_scope.
Local Open Scope list_scope.

(** Visible ASCII characters and spaces: no line breaks, no control characters. *)
Definition printable (t : text) : Prop := Forall (fun c => 0x20 <= c <= 0x7E) t.

(** ** Tokens *)

(** The digits [0-9a-f] and their values. *)
Inductive hex_digit : char -> N -> Prop :=
| HD_digit d : d < 10 -> hex_digit (0x30 + d) d
| HD_letter d : 10 <= d < 16 -> hex_digit (0x61 + (d - 10)) d.

(** The most significant digit comes first; [hex s acc n]: [s] continues a number
    of value [acc] to [n]. *)
Inductive hex_from : text -> N -> N -> Prop :=
| HF_end n : hex_from [] n n
| HF_digit c d s acc n : hex_digit c d -> hex_from s (acc * 16 + d) n -> hex_from (c :: s) acc n.

(** [n] in hexadecimal, without superfluous zeros. *)
Definition hex_of (n : N) (s : text) : Prop :=
  hex_from s 0 n /\ s <> [] /\ (forall s', s = 0x30 :: s' -> s' = []).

(** A character that is not visible is written as an escape. *)
Inductive invisible : char -> text -> Prop :=
| In_tab : invisible 0x09 (str "\t")
| In_cr : invisible 0x0D (str "\r")
| In_lf : invisible 0x0A (str "\n")
| In_other c s :
    ~ In c [0x09; 0x0D; 0x0A] -> c < 0x20 \/ 0x7E < c -> hex_of c s ->
    invisible c (str "\u{" ++ s ++ str "}").

(** A visible one as itself; inside a word quotes and backslashes are escaped. *)
Inductive letter : char -> text -> Prop :=
| Le_quote c : In c [0x22; 0x27; 0x5C] -> letter c [0x5C; c]
| Le_plain c : 0x20 <= c <= 0x7E -> ~ In c [0x22; 0x27; 0x5C] -> letter c [c]
| Le_invisible c s : invisible c s -> letter c s.

Inductive word : text -> text -> Prop :=
| Wo_end : word [] []
| Wo_letter c s t u : letter c s -> word t u -> word (c :: t) (s ++ u).

Inductive spelled : token -> text -> Prop :=
| Sp_char c : 0x20 <= c <= 0x7E -> spelled (TChar c) (str "`" ++ [c] ++ str "`")
| Sp_escape c s : invisible c s -> spelled (TChar c) (str "`" ++ s ++ str "`")
| Sp_token t s : word t s -> spelled (TToken t) (str "`" ++ s ++ str "`")
| Sp_kind s : spelled (TKind s) s
| Sp_open n : spelled (TOpenRaw n) (str "`r" ++ repeat 0x23 n ++ str """`")
| Sp_close n : spelled (TCloseRaw n) (str "`""" ++ repeat 0x23 n ++ str "`")
| Sp_end : spelled TEoi (str "end of input").

(** ** The errors of the parser: labels, messages and help

    An error with a label of its own lists at least what goes with the label; others
    that are possible at the same place may have been added. *)

Inductive worded {Sp : Type} : perror Sp -> Prop :=
| Wd_char sp c x : Forall nameable x -> worded (EUnexpected None sp (TChar c) x)
| Wd_end sp x : Forall nameable x -> worded (EUnexpected None sp TEoi x)
| Wd_escape sp c x :
    incl (map TChar [0x22; 0x5C; 0x2F; 0x62; 0x66; 0x6E; 0x72; 0x74]) x -> Forall nameable x ->
    worded (EUnexpected (Some "invalid escape char"%string) sp (TChar c) x)
| Wd_hex sp c x :
    In (TKind (str "hexadecimal digit")) x -> Forall nameable x ->
    worded (EUnexpected (Some "unexpected character"%string) sp (TChar c) x)
| Wd_keyword sp k x :
    In k [str "true"; str "false"; str "null"] -> In (TKind (str "identifier")) x -> Forall nameable x ->
    worded (EUnexpected (Some "keyword"%string) sp (TToken k) x)
| Wd_number sp x :
    In (TKind (str "identifier")) x -> Forall nameable x ->
    worded (EUnexpected (Some "unexpected number"%string) sp (TKind (str "number")) x)
| Wd_keyword_key sp x :
    incl (map TKind [str "identifier"; str "string"]) x -> Forall nameable x ->
    worded (EUnexpected (Some "unexpected keyword"%string) sp (TKind (str "keyword")) x)
| Wd_unclosed what oa o ea c o' c' :
    delimiters what o o' c c' -> worded (EUnclosed what oa o ea c TEoi)
| Wd_code sp :
    worded (EMessage (Some "invalid character code"%string) sp
              "converted integer out of range for `char`")
| Wd_number_key sp :
    worded (EMessageHelp (Some "unexpected number"%string) sp
              "numbers cannot be used as property names"
              "consider enclosing in double quotes ""..""")
| Wd_argument sp :
    worded (EMessageHelp (Some "unexpected identifier"%string) sp
              "identifiers cannot be used as arguments"
              "consider enclosing in double quotes ""..""").

(** All that is shown of an error of the parser can be printed. *)
Definition perror_printable {Sp} (e : perror Sp) : Prop :=
  printable (perror_message e) /\ Forall (fun l => printable (fst l)) (perror_labels e)
  /\ forall h, perror_help e = Some h -> printable h.

(** ** The errors of decoders *)

(** The type name in an error comes from the source as it is. *)
Definition shown_type {Sp} (e : derror Sp) : text :=
  match e with
  | DTypeName _ (Some t) _ _ => typename_as_str t
  | _ => []
  end.

(** All that is shown of an error of a decoder can be printed if the type name in it
    can. *)
Definition derror_printable (other : N -> text) {Sp} (e : derror Sp) : Prop :=
  printable (shown_type e) ->
  printable (derror_message other e) /\ Forall (fun l => printable (fst l)) (derror_labels e).

(** What is accepted: the types, and no type if that is allowed. *)
Definition accepted (e : expected_type) : list text :=
  map typename_as_str (et_types e) ++ (if et_no_type e then [str "no type"] else []).

(** The names of the kinds of scalars. *)
Inductive kind_name : kind -> text -> Prop :=
| KN_int : kind_name KInt (str "integer")
| KN_decimal : kind_name KDecimal (str "decimal")
| KN_string : kind_name KString (str "string")
| KN_bool : kind_name KBool (str "boolean")
| KN_null : kind_name KNull (str "null").

(** ** Derived decoders *)

Section Shows.
Context (other : N -> text) {Sp L : Type} (kebab : text -> text).

(** All errors of the implementations for a type can be printed. *)
Record shows (i : tyimpl Sp L) : Prop := Shows {
  sw_scalar : forall v, reports (derror_printable other) (ti_scalar i v);
  sw_node : forall n, reports (derror_printable other) (ti_node i n);
  sw_span : forall sp, reports (derror_printable other) (d_pure (ti_span i sp));
  sw_from_str : forall t e, ti_from_str i t = inr e -> printable (source_display other e);
  sw_from_bytes : forall t e, ti_from_bytes i t = inr e -> printable (source_display other e);
  sw_key : forall t e, ti_key_from_str i t = inr e -> printable (source_display other e);
}.

(** The same for a scalar implementation. *)
Record shows_scalar {A} (i : scalar_impl Sp A) : Prop := ShowsScalar {
  ss_type_check : forall ty c, exists es,
    c_errors (sc_type_check i ty c) = c_errors c ++ es /\ Forall (derror_printable other) es;
  ss_raw_decode : forall v, reports (derror_printable other) (sc_raw_decode i v);
  ss_decode : forall v, reports (derror_printable other) (sc_decode i v);
}.

(** The names that the source of the program gives to things. *)
Definition names_printable (fs : list (src_field Sp L)) : Prop :=
  (forall a x, In a (the_arguments fs) -> f_attr (ar_field a) = Named x -> printable x)
  /\ Forall (fun p => printable (pr_name p)) (the_properties kebab fs)
  /\ Forall (fun d => printable (ch_name d)) (the_children kebab fs).

(** The same inside [unwrap(...)], on all levels. *)
Fixpoint inside_printable (a : field_attrs L) : Prop :=
  match a with
  | FieldAttrs mode _ inner _ =>
      (exists m, mode = Some m /\ unwrappable m
         /\ forall t, m = FmProperty (Some t) \/ m = FmChildren (Some t) -> printable t)
      /\ match inner with Some u => inside_printable u | None => True end
  end.

Definition unwraps_printable (f : field Sp L) (u : option (field_attrs L)) : Prop :=
  match u with
  | Some a =>
      inside_printable a /\ printable (tmp_name (f_attr f)) /\ printable (kebab (tmp_name (f_attr f)))
  | None => True
  end.

Record fields_show (fs : list (src_field Sp L)) : Prop := FieldsShow {
  fw_fields : Forall (fun f => shows (sf_impl f)) fs;
  fw_names : names_printable fs;
  fw_children : forall d, In d (the_children kebab fs) -> unwraps_printable (ch_field d) (ch_unwrap d);
  fw_rest : forall f u, the_var_children fs = Some (f, u) -> unwraps_printable f u;
}.

End Shows.

(** ** Labels *)

(** The labels of an error of the parser and where they point: at the opening delimiter
    and at the end of the source if something is not closed, and otherwise at some
    characters or at the end. *)
Inductive labelled (t : text) : list (text * span) -> Prop :=
| Lb_unclosed what o o' c c' s sp :
    delimiters what o o' c c' -> covers t sp o' -> spelled c s ->
    labelled t [(str "opened here", sp); (str "expected " ++ s, end_of t)]
| Lb_one l s sp :
    In l [str "unexpected token"; str "invalid escape char"; str "unexpected character"; str "keyword";
          str "unexpected number"; str "unexpected keyword"; str "invalid character code";
          str "unexpected identifier"] ->
    s <> [] -> covers t sp s -> labelled t [(l, sp)]
| Lb_end : labelled t [(str "unexpected token", end_of t)].
