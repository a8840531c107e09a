(** Model of src/grammar.rs, function by function, and of [parse_ast]. *)

From Coq Require Import NArith PeanoNat List Bool String.
From Verif Require Import Chars Ast Errors Chumsky Spans.
Import ListNotations.
Local Open Scope N_scope.

Section Grammar.
Context {Sp : Type} {E : env Sp}.

Notation parser := (parser Sp).

(** src/grammar.rs:42-48 [begin_comment]. *)
Definition begin_comment (which : char) : parser unit :=
  p_ignore_then (p_map_err with_no_expected (p_just 0x2F))
                (p_ignored (p_just which)).

(** src/grammar.rs:50-61 [newline]. *)
Definition newline : parser unit :=
  p_map_err (with_expected_kind (str "newline"))
    (p_ignored
      (p_or (p_or (p_or (p_or (p_or
        (p_ignore_then (p_or_not (p_just 0x0D)) (p_just 0x0A))
        (p_just 0x0D))
        (p_just 0x0C))
        (p_just 0x85))
        (p_just 0x2028))
        (p_just 0x2029))).

(** src/grammar.rs:63-71 [ws_char]. *)
Definition ws_char : parser unit := p_ignored (p_filter is_ws_char).

(** src/grammar.rs:73-85 [id_char]. *)
Definition id_char : parser char :=
  p_map_err (with_expected_kind (str "letter")) (p_filter is_id_char).

(** src/grammar.rs:87-100 [id_sans_dig]. *)
Definition id_sans_dig : parser char :=
  p_map_err (with_expected_kind (str "letter")) (p_filter is_id_sans_dig).

(** src/grammar.rs:102-115 [id_sans_sign_dig]. *)
Definition id_sans_sign_dig : parser char :=
  p_map_err (with_expected_kind (str "letter")) (p_filter is_id_sans_sign_dig).

(** The test on the error in src/grammar.rs:138, 167, 247, 523. *)
Definition is_eoi_error (e : perror Sp) : bool :=
  match e with
  | EUnexpected _ _ TEoi _ => true
  | _ => false
  end.

(** src/grammar.rs:137-152: the error callback of [ml_comment]. *)
Definition ml_comment_err (e : perror Sp) (span : Sp) : option (perror Sp) :=
  if is_eoi_error e && (2 <? sp_length span)%nat then
    merge e (EUnclosed "comment" (sp_at_start 2 span) (TToken (str "/*"))
                       (sp_at_end span) (TToken (str "*/")) TEoi)
  else Some e.

(** The body of the recursion in src/grammar.rs:128-136, given the recursive
    parser. *)
Definition ml_body (comment : parser unit) : parser unit :=
  p_delimited
    (p_ignored (p_repeated
      (p_choice
        [ comment;
          p_ignored (p_none_of 0x2A);
          p_ignored (p_then_ignore (p_just 0x2A) (p_rewind (p_none_of 0x2F)))
        ])))
    (begin_comment 0x2A)
    (p_just_str (str "*/")).

(** src/grammar.rs:128-136: the recursive parser.  Each level consumes "/*", so
    the length of the input bounds the depth. *)
Fixpoint ml_comment_rec (fuel : nat) : parser unit :=
  match fuel with
  | O => fun ts => Res [] (Err (unexpected ts [])) [CFuel]
  | S fuel' => ml_body (ml_comment_rec fuel')
  end.

(** src/grammar.rs:127-153 [ml_comment]. *)
Definition ml_comment : parser unit := fun ts =>
  p_map_err_with_span ml_comment_err (ml_comment_rec (S (List.length ts))) ts.

(** src/grammar.rs:117-120 [ws]. *)
Definition ws : parser unit :=
  p_map_err (with_expected_kind (str "whitespace"))
    (p_or (p_ignored (p_repeat 1 None ws_char)) ml_comment).

(** src/grammar.rs:122-125 [comment]. *)
Definition comment : parser unit :=
  p_ignored (p_then (begin_comment 0x2F) (p_take_until (p_or newline p_end))).

(** src/grammar.rs:165-180: the error callback of [raw_string]. *)
Definition raw_string_err (sharp_num : nat) (e : perror Sp) (span : Sp)
  : option (perror Sp) :=
  if is_eoi_error e then
    merge e (EUnclosed "raw string" (sp_before_start (sharp_num + 2) span)
                       (TOpenRaw sharp_num) (sp_at_end span)
                       (TCloseRaw sharp_num) TEoi)
  else Some e.

(** src/grammar.rs:155-184 [raw_string]. *)
Definition raw_string : parser text :=
  p_map (fun r => fst (snd r))
    (p_bind
      (p_then_ignore
        (p_ignore_then (p_just 0x72)
          (p_map (@List.length char) (p_repeated (p_just 0x23))))
        (p_just 0x22))
      (fun sharp_num =>
        p_map_err_with_span (raw_string_err sharp_num)
          (p_take_until
            (p_ignore_then (p_just 0x22)
              (p_ignored (p_exactly sharp_num (p_just 0x23))))))).

(** src/grammar.rs:190-192 [expected_kind]. *)
Definition expected_kind (s : string) : list token := [TKind (str s)].

(** src/grammar.rs:195-208: the one-character escapes. *)
Definition esc_simple (span : Sp) (c : char) : char + perror Sp :=
  if (c =? 0x22) || (c =? 0x5C) || (c =? 0x2F) then inl c
  else if c =? 0x62 then inl 0x08
  else if c =? 0x66 then inl 0x0C
  else if c =? 0x6E then inl 0x0A
  else if c =? 0x72 then inl 0x0D
  else if c =? 0x74 then inl 0x09
  else inr (EUnexpected (Some "invalid escape char"%string) span (TChar c)
             (set_extend [] (map TChar [0x22; 0x5C; 0x2F; 0x62; 0x66; 0x6E;
                                        0x72; 0x74]))).

(** src/grammar.rs:210-216: a hexadecimal digit. *)
Definition esc_hex (span : Sp) (c : char) : char + perror Sp :=
  if is_digit 16 c then inl c
  else inr (EUnexpected (Some "unexpected character"%string) span (TChar c)
              (expected_kind "hexadecimal digit")).

(** [u32::from_str_radix(_, 16)] on one to six hexadecimal digits, which cannot
    overflow. *)
Definition hex_value (digits : text) : N :=
  fold_left (fun acc c =>
    acc * 16 + match to_digit 16 c with Some d => d | None => 0 end) digits 0.

(** src/grammar.rs:221-232: conversion to a character. *)
Definition esc_code (digits : text) (span : Sp) : char + perror Sp :=
  let n := hex_value digits in
  if is_scalar n then inl n
  else inr (EMessage (Some "invalid character code"%string) span
              "converted integer out of range for `char`").

(** src/grammar.rs:233: the characters recovery stops at. *)
Definition esc_stop (c : char) : bool :=
  (c =? 0x7D) || (c =? 0x22) || (c =? 0x5C).

(** src/grammar.rs:194-234 [esc_char]. *)
Definition esc_char : parser char :=
  p_or (p_filter_map esc_simple)
    (p_ignore_then (p_just 0x75)
      (p_recover_skip_until esc_stop 0
        (p_try_map esc_code
          (p_delimited (p_repeat 1 (Some 6%nat) (p_filter_map esc_hex))
                       (p_just 0x7B) (p_just 0x7D))))).

(** src/grammar.rs:245-258: the error callback of [escaped_string]. *)
Definition string_err (e : perror Sp) (span : Sp) : option (perror Sp) :=
  if is_eoi_error e then
    merge e (EUnclosed "string" (sp_before_start 1 span) (TChar 0x22)
                       (sp_at_end span) (TChar 0x22) TEoi)
  else Some e.

(** src/grammar.rs:236-260 [escaped_string]. *)
Definition escaped_string : parser text :=
  p_ignore_then (p_just 0x22)
    (p_map_err_with_span string_err
      (p_then_ignore
        (p_repeated
          (p_or (p_filter (fun c => negb (c =? 0x22) && negb (c =? 0x5C)))
                (p_ignore_then (p_just 0x5C) esc_char)))
        (p_just 0x22))).

(** src/grammar.rs:186-188 [string]. *)
Definition string_ : parser text := p_or raw_string escaped_string.

(** [just('+').or(just('-'))], src/grammar.rs:263. *)
Definition plus_minus : parser char := p_or (p_just 0x2B) (p_just 0x2D).

(** [chain] of one character or a list with a list, src/grammar.rs:27-39. *)
Definition cons2 (r : char * text) : text := fst r :: snd r.
Definition app2 (r : text * text) : text := fst r ++ snd r.

Definition keyword_error (s : string) (span : Sp) : perror Sp :=
  EUnexpected (Some "keyword"%string) span (TToken (str s))
              (expected_kind "identifier").

(** src/grammar.rs:269-291: rejects the keywords. *)
Definition not_keyword (s : text) (span : Sp) : text + perror Sp :=
  if text_eqb s (str "true") then inr (keyword_error "true" span)
  else if text_eqb s (str "false") then inr (keyword_error "false" span)
  else if text_eqb s (str "null") then inr (keyword_error "null" span)
  else inl s.

(** src/grammar.rs:262-292 [bare_ident]. *)
Definition bare_ident : parser text :=
  p_try_map not_keyword
    (p_choice
      [ p_map cons2 (p_then plus_minus
          (p_map cons2 (p_then id_sans_dig (p_repeated id_char))));
        p_exactly 1 plus_minus;
        p_map cons2 (p_then id_sans_sign_dig (p_repeated id_char)) ]).

(** src/grammar.rs:325-327 [digit]. *)
Definition digit (radix : N) : parser char := p_filter (is_digit radix).

(** src/grammar.rs:329-331 [digits]. *)
Definition digits (radix : N) : parser text :=
  p_repeated (p_filter (fun c => (c =? 0x5F) || is_digit radix c)).

(** [just('-').or(just('+')).or_not()], src/grammar.rs:334, 339, 353. *)
Definition opt_sign : parser (option char) :=
  p_or_not (p_or (p_just 0x2D) (p_just 0x2B)).

(** [Chain] for [Option<char>]. *)
Definition opt_list (o : option char) : text :=
  match o with Some c => [c] | None => [] end.

(** [flatten] of an optional list. *)
Definition opt_flat (o : option text) : text :=
  match o with Some t => t | None => [] end.

Definition no_underscore (t : text) : text :=
  filter (fun c => negb (c =? 0x5F)) t.

(** src/grammar.rs:341-349. *)
Definition decimal_literal (v : text) : literal :=
  let is_decimal :=
    existsb (fun c => (c =? 0x2E) || (c =? 0x65) || (c =? 0x45)) v in
  let s := no_underscore v in
  if is_decimal then LDecimal s else LInt Dec s.

(** src/grammar.rs:337: the fraction. *)
Definition fraction : parser text :=
  p_map opt_flat (p_or_not
    (p_map app2 (p_then
      (p_map (fun r => [fst r; snd r]) (p_then (p_just 0x2E) (digit 10)))
      (digits 10)))).

(** src/grammar.rs:338-340: the exponent.  Its digits may be missing. *)
Definition exponent : parser text :=
  p_map opt_flat (p_or_not
    (p_map app2 (p_then
      (p_map (fun r => fst r :: opt_list (snd r))
        (p_then (p_or (p_just 0x65) (p_just 0x45)) opt_sign))
      (digits 10)))).

(** src/grammar.rs:333-350 [decimal_number]. *)
Definition decimal_number : parser literal :=
  p_map decimal_literal
    (p_map app2 (p_then
      (p_map app2 (p_then
        (p_map app2 (p_then
          (p_map (fun r => opt_list (fst r) ++ [snd r])
            (p_then opt_sign (digit 10)))
          (digits 10)))
        fraction))
      exponent)).

(** src/grammar.rs:356-361: the digits after one radix prefix. *)
Definition radix_digits (prefix : char) (n : N) (r : radix)
  : parser (radix * text) :=
  p_ignore_then (p_just prefix)
    (p_map (fun s => (r, s))
      (p_map cons2 (p_then (digit n) (digits n)))).

(** src/grammar.rs:352-369 [radix_number]. *)
Definition radix_number : parser literal :=
  p_map (fun r =>
      LInt (fst (snd r)) (opt_list (fst r) ++ no_underscore (snd (snd r))))
    (p_then
      (p_then_ignore opt_sign (p_just 0x30))
      (p_choice [ radix_digits 0x62 2 Bin;
                  radix_digits 0x6F 8 Oct;
                  radix_digits 0x78 16 Hex ])).

(** src/grammar.rs:371-373 [number]. *)
Definition number : parser literal := p_or radix_number decimal_number.

(** src/grammar.rs:303-308: the error for a number as an identifier. *)
Definition not_number (r : literal + text) (span : Sp) : text + perror Sp :=
  match r with
  | inl _ => inr (EUnexpected (Some "unexpected number"%string) span
                    (TKind (str "number")) (expected_kind "identifier"))
  | inr s => inl s
  end.

(** src/grammar.rs:294-309 [ident]. *)
Definition ident : parser text :=
  p_try_map not_number
    (p_choice [ p_map inl number; p_map inr bare_ident; p_map inr string_ ]).

(** One keyword of src/grammar.rs:311-323. *)
Definition keyword1 (s : string) (l : literal) : parser literal :=
  p_map (fun _ => l)
    (p_map_err (with_expected_token (str s)) (p_just_str (str s))).

(** src/grammar.rs:311-323 [keyword].  There is no check of what follows. *)
Definition keyword : parser literal :=
  p_choice [ keyword1 "null" LNull;
             keyword1 "true" (LBool true);
             keyword1 "false" (LBool false) ].

(** src/grammar.rs:375-381 [literal]. *)
Definition literal_ : parser literal :=
  p_choice [ p_map LString string_; keyword; number ].

(** src/grammar.rs:383-385 [type_name]. *)
Definition type_name : parser typename :=
  p_map typename_from_string (p_delimited ident (p_just 0x28) (p_just 0x29)).

(** src/grammar.rs:387-392 [spanned]. *)
Definition p_spanned {T} (p : parser T) : parser (spanned T Sp) :=
  p_map_with_span (fun value span => Spanned span value) p.

(** src/grammar.rs:394-398 [esc_line]. *)
Definition esc_line : parser unit :=
  p_ignore_then (p_ignore_then (p_just 0x5C) (p_repeated ws))
                (p_or comment newline).

(** src/grammar.rs:400-402 [node_space]. *)
Definition node_space : parser unit := p_or ws esc_line.

(** src/grammar.rs:404-406 [node_terminator]. *)
Definition node_terminator : parser unit :=
  p_choice [ newline; comment; p_ignored (p_just 0x3B); p_end ].

(** src/grammar.rs:408-412 [PropOrArg]. *)
Inductive prop_or_arg_t :=
| Prop_ (name : spanned text Sp) (v : value Sp)
| Arg_ (v : value Sp)
| Ignore_.

(** src/grammar.rs:414-417 [type_name_value]. *)
Definition type_name_value : parser (value Sp) :=
  p_map (fun r => Value (Some (fst r)) (snd r))
    (p_then (p_spanned type_name) (p_spanned literal_)).

(** src/grammar.rs:419-422 [value]. *)
Definition value_ : parser (value Sp) :=
  p_or type_name_value (p_map (fun l => Value None l) (p_spanned literal_)).

(** [just('=').ignore_then(value()).or_not()], src/grammar.rs:429, 464. *)
Definition opt_value : parser (option (value Sp)) :=
  p_or_not (p_ignore_then (p_just 0x3D) value_).

(** src/grammar.rs:430-462: what a literal, possibly followed by "=value",
    means. *)
Definition literal_item (r : spanned literal Sp * option (value Sp)) (_ : Sp)
  : prop_or_arg_t + perror Sp :=
  let '(name, v) := r in
  let name_span := s_span name in
  match s_value name, v with
  | LString s, Some v => inl (Prop_ (Spanned name_span s) v)
  | LBool _, Some _ | LNull, Some _ =>
      inr (EUnexpected (Some "unexpected keyword"%string) name_span
             (TKind (str "keyword"))
             (set_extend [] [TKind (str "identifier"); TKind (str "string")]))
  | LInt _ _, Some _ | LDecimal _, Some _ =>
      inr (EMessageHelp (Some "unexpected number"%string) name_span
             "numbers cannot be used as property names"
             "consider enclosing in double quotes ""..""")
  | lit, None => inl (Arg_ (Value None (Spanned name_span lit)))
  end.

(** src/grammar.rs:465-476: a bare identifier without a value is an error, but
    parsing goes on. *)
Definition ident_item_check (r : spanned text Sp * option (value Sp)) (span : Sp)
  : (spanned text Sp * option (value Sp)) * option (perror Sp) :=
  (r, match snd r with
      | None =>
          Some (EMessageHelp (Some "unexpected identifier"%string) span
                  "identifiers cannot be used as arguments"
                  "consider enclosing in double quotes ""..""")
      | Some _ => None
      end).

(** src/grammar.rs:477-488. *)
Definition ident_item (r : spanned text Sp * option (value Sp)) : prop_or_arg_t :=
  match snd r with
  | Some v => Prop_ (fst r) v
  | None => Arg_ (Value None (spanned_map LString (fst r)))
  end.

(** src/grammar.rs:424-496 [prop_or_arg_inner]. *)
Definition prop_or_arg_inner : parser prop_or_arg_t :=
  p_choice
    [ p_try_map literal_item (p_then (p_spanned literal_) opt_value);
      p_map ident_item
        (p_validate ident_item_check
          (p_then (p_spanned bare_ident) opt_value));
      p_map Arg_ type_name_value ].

(** src/grammar.rs:498-504 [prop_or_arg]. *)
Definition prop_or_arg : parser prop_or_arg_t :=
  p_or
    (p_map (fun _ => Ignore_)
      (p_ignore_then
        (p_ignore_then (begin_comment 0x2D) (p_repeated node_space))
        prop_or_arg_inner))
    prop_or_arg_inner.

(** src/grammar.rs:506-508 [line_space]. *)
Definition line_space : parser unit := p_or (p_or newline ws) comment.

(** src/grammar.rs:519-536: the error callback of [braced_nodes]. *)
Definition braces_err (e : perror Sp) (span : Sp) : option (perror Sp) :=
  if is_eoi_error e then
    merge e (EUnclosed "curly braces" (sp_before_start 1 span) (TChar 0x7B)
                       (sp_at_end span) (TChar 0x7D) TEoi)
  else Some e.

(** src/grammar.rs:515-536 [braced_nodes], given the recursive parser. *)
Definition braced_nodes (nodes : parser (list (snode Sp)))
  : parser (list (snode Sp)) :=
  p_ignore_then (p_just 0x7B)
    (p_map_err_with_span braces_err (p_then_ignore nodes (p_just 0x7D))).

(** src/grammar.rs:562-572: the loop that files the items of a node. *)
Definition add_item (acc : list (value Sp) * list (spanned text Sp * value Sp))
    (i : prop_or_arg_t)
  : list (value Sp) * list (spanned text Sp * value Sp) :=
  match i with
  | Prop_ name v => (fst acc, props_insert name v (snd acc))
  | Arg_ v => (fst acc ++ [v], snd acc)
  | Ignore_ => acc
  end.

(** src/grammar.rs:551-575: builds the node. *)
Definition make_node
    (r : (option (spanned typename Sp) * spanned text Sp)
         * list prop_or_arg_t
         * option (option unit * spanned (list (snode Sp)) Sp))
  : node Sp :=
  let '(((ty, nm), items), opt_children) := r in
  let '(args, props) := fold_left add_item items ([], []) in
  Node ty nm args props
    (match opt_children with
     | Some (Some _, _) => None
     | Some (None, c) => Some c
     | None => None
     end).

(** [begin_comment('-').then_ignore(node_space().repeated()).or_not()],
    src/grammar.rs:546-548, 577. *)
Definition slashdash : parser (option unit) :=
  p_or_not (p_then_ignore (begin_comment 0x2D) (p_repeated node_space)).

(** src/grammar.rs:540-543: the arguments and properties. *)
Definition node_items : parser (list prop_or_arg_t) :=
  p_repeated (p_ignore_then (p_repeat 1 None node_space) prop_or_arg).

(** src/grammar.rs:545-550: the optional children block. *)
Definition opt_children (nodes : parser (list (snode Sp)))
  : parser (option (option unit * spanned (list (snode Sp)) Sp)) :=
  p_or_not
    (p_then (p_ignore_then (p_repeated node_space) slashdash)
            (p_spanned (braced_nodes nodes))).

(** src/grammar.rs:538-575 [node], given the recursive parser. *)
Definition node_ (nodes : parser (list (snode Sp))) : parser (node Sp) :=
  p_map make_node
    (p_then_ignore
      (p_then
        (p_then
          (p_then (p_or_not (p_spanned type_name)) (p_spanned ident))
          node_items)
        (opt_children nodes))
      (p_then (p_repeated node_space) node_terminator)).

(** src/grammar.rs:581-587: drops the slashdashed nodes. *)
Definition keep_node (r : option unit * snode Sp) : list (snode Sp) :=
  match fst r with
  | None => [snd r]
  | Some _ => []
  end.

(** src/grammar.rs:513-588: the body of the recursion. *)
Definition nodes_body (nodes : parser (list (snode Sp)))
  : parser (list (snode Sp)) :=
  p_map (flat_map keep_node)
    (p_separated (p_then slashdash (p_spanned (node_ nodes)))
                 (p_repeated line_space)).

(** The recursion itself: each level consumes an opening brace, so the length of
    the input bounds the depth. *)
Fixpoint nodes_rec (fuel : nat) : parser (list (snode Sp)) :=
  match fuel with
  | O => fun ts => Res [] (Err (unexpected ts [])) [CFuel]
  | S fuel' => nodes_body (nodes_rec fuel')
  end.

(** src/grammar.rs:511-589 [nodes]. *)
Definition nodes : parser (list (snode Sp)) := fun ts =>
  nodes_rec (S (List.length ts)) ts.

(** src/grammar.rs:591-595 [document]. *)
Definition document_ : parser (document Sp) := p_then_ignore nodes p_end.

End Grammar.

(** src/wrappers.rs:13-24 [parse_ast], for the two span types.  The file name
    and the copy of the source kept in the error are not modelled. *)
Definition parse_ast_span (t : text) : parsed span (document span) :=
  let '(ts, eoi) := span_stream t in
  run (@document_ span (span_env eoi)) ts.

Definition parse_ast_linespan (width : char -> option nat) (t : text)
  : parsed linespan (document linespan) :=
  let '(ts, eoi) := linespan_stream width t in
  run (@document_ linespan (linespan_env eoi)) ts.
