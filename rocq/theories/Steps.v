(** The parser with a count of its steps: each combinator of Chumsky.v and each
    parser of Grammar.v again, next to the number of times it looks at the
    input.  The parsers themselves are those of Grammar.v (StepsProps.v,
    [document_timed]). *)

From Coq Require Import NArith PeanoNat List Bool String.
From Verif Require Import Chars Ast Errors Chumsky Spans Grammar.
Import ListNotations.
Local Open Scope nat_scope.

Section Steps.
Context {Sp : Type} {E : env Sp}.

Notation parser := (parser Sp).
Notation toks := (toks Sp).

(** A parser and, for each input, the number of its steps.  A step is one look
    at the next token or at the end of input. *)
Record timed (A : Type) := Timed {
  t_parser : parser A;
  t_steps : toks -> nat;
}.
Arguments Timed {A}.
Arguments t_parser {A}.
Arguments t_steps {A}.

(** ** Combinators: Chumsky.v, in the same order *)

Definition t_filter (f : char -> bool) : timed char :=
  Timed (p_filter f) (fun _ => 1).
Definition t_none_of (x : char) : timed char := Timed (p_none_of x) (fun _ => 1).
Definition t_just (x : char) : timed char := Timed (p_just x) (fun _ => 1).
Definition t_end : timed unit := Timed p_end (fun _ => 1).
Definition t_filter_map {A} (f : Sp -> char -> A + perror Sp) : timed A :=
  Timed (p_filter_map f) (fun _ => 1).

(** [just] for a string stops at the first difference. *)
Fixpoint just_str_steps (s : text) (ts : toks) : nat :=
  match s with
  | [] => 0
  | x :: s' =>
      1 + match ts with
          | (c, _) :: ts' => if N.eqb c x then just_str_steps s' ts' else 0
          | [] => 0
          end
  end.
Definition t_just_str (s : text) : timed unit :=
  Timed (p_just_str s) (just_str_steps s).

(** What only works on the result takes no steps. *)
Definition t_map {A B} (f : A -> B) (p : timed A) : timed B :=
  Timed (p_map f (t_parser p)) (t_steps p).
Definition t_ignored {A} (p : timed A) : timed unit :=
  Timed (p_ignored (t_parser p)) (t_steps p).
Definition t_map_with_span {A B} (f : A -> Sp -> B) (p : timed A) : timed B :=
  Timed (p_map_with_span f (t_parser p)) (t_steps p).
Definition t_map_err {A} (f : perror Sp -> perror Sp) (p : timed A) : timed A :=
  Timed (p_map_err f (t_parser p)) (t_steps p).
Definition t_map_err_with_span {A} (f : perror Sp -> Sp -> option (perror Sp))
    (p : timed A) : timed A :=
  Timed (p_map_err_with_span f (t_parser p)) (t_steps p).
Definition t_try_map {A B} (f : A -> Sp -> B + perror Sp) (p : timed A) : timed B :=
  Timed (p_try_map f (t_parser p)) (t_steps p).
Definition t_validate {A B} (f : A -> Sp -> B * option (perror Sp)) (p : timed A)
  : timed B :=
  Timed (p_validate f (t_parser p)) (t_steps p).
Definition t_rewind {A} (p : timed A) : timed A :=
  Timed (p_rewind (t_parser p)) (t_steps p).
Definition t_or_not {A} (p : timed A) : timed (option A) :=
  Timed (p_or_not (t_parser p)) (t_steps p).

(** The second parser runs where the first one succeeded. *)
Definition t_bind {A B} (p : timed A) (q : A -> timed B) : timed (A * B) :=
  Timed (p_bind (t_parser p) (fun a => t_parser (q a)))
    (fun ts =>
       t_steps p ts
       + match r_out (t_parser p ts) with
         | Ok a rest _ => t_steps (q a) rest
         | Err _ => 0
         end).
Definition t_then {A B} (p : timed A) (q : timed B) : timed (A * B) :=
  t_bind p (fun _ => q).
Definition t_ignore_then {A B} (p : timed A) (q : timed B) : timed B :=
  t_map snd (t_then p q).
Definition t_then_ignore {A B} (p : timed A) (q : timed B) : timed A :=
  t_map fst (t_then p q).
Definition t_delimited {A B C} (p : timed A) (o : timed B) (c : timed C) : timed A :=
  t_then_ignore (t_ignore_then o p) c.

(** The second alternative runs unless the first gave an output and no errors. *)
Definition t_or {A} (p q : timed A) : timed A :=
  Timed (p_or (t_parser p) (t_parser q))
    (fun ts =>
       t_steps p ts
       + match r_errs (t_parser p ts), r_out (t_parser p ts) with
         | [], Ok _ _ _ => 0
         | _, _ => t_steps q ts
         end).

(** The alternatives run until one gives an output. *)
Fixpoint choice_steps {A} (ps : list (timed A)) (ts : toks) : nat :=
  match ps with
  | [] => 0
  | p :: ps' =>
      t_steps p ts
      + match r_out (t_parser p ts) with
        | Ok _ _ _ => 0
        | Err _ => choice_steps ps' ts
        end
  end.
Definition t_choice {A} (ps : list (timed A)) : timed A :=
  Timed (p_choice (map t_parser ps)) (choice_steps ps).

(** [repeat_loop]; [n] is the number of outputs so far. *)
Fixpoint repeat_steps {A} (fuel : nat) (p : timed A) (at_most : option nat)
    (n : nat) (old : option nat) (ts : toks) : nat :=
  match fuel with
  | O => 0
  | S fuel' =>
      if match at_most with Some m => m <=? n | None => false end then 0
      else
        t_steps p ts
        + match r_out (t_parser p ts) with
          | Ok _ rest _ =>
              if match old with Some o => o =? List.length rest | None => false end
              then 0
              else repeat_steps fuel' p at_most (S n) (Some (List.length rest)) rest
          | Err _ => 0
          end
  end.
Definition t_repeat {A} (at_least : nat) (at_most : option nat) (p : timed A)
  : timed (list A) :=
  Timed (p_repeat at_least at_most (t_parser p))
    (fun ts => repeat_steps (3 + List.length ts) p at_most 0 None ts).
Definition t_repeated {A} (p : timed A) : timed (list A) := t_repeat 0 None p.
Definition t_exactly {A} (n : nat) (p : timed A) : timed (list A) :=
  t_repeat n (Some n) p.

(** [until_loop]: a token is skipped whenever the parser fails. *)
Fixpoint until_steps {A} (p : timed A) (ts : toks) : nat :=
  t_steps p ts
  + match r_out (t_parser p ts), ts with
    | Ok _ _ _, _ => 0
    | Err _, [] => 1
    | Err _, _ :: ts' => 1 + until_steps p ts'
    end.
Definition t_take_until {A} (p : timed A) : timed (list char * A) :=
  Timed (p_take_until (t_parser p)) (until_steps p).

(** [skip_to]. *)
Fixpoint skip_steps (f : char -> bool) (ts : toks) : nat :=
  1 + match ts with
      | [] => 0
      | (c, _) :: ts' => if f c then 0 else skip_steps f ts'
      end.
Definition t_recover_skip_until {A} (f : char -> bool) (fallback : A)
    (p : timed A) : timed A :=
  Timed (p_recover_skip_until f fallback (t_parser p))
    (fun ts =>
       t_steps p ts
       + match r_out (t_parser p ts) with
         | Ok _ _ _ => 0
         | Err _ => skip_steps f ts
         end).

(** The loop of [separated_by]: its steps and the place after the last item. *)
Fixpoint sep_steps {A B} (fuel : nat) (item : timed A) (d : timed B) (ts : toks)
  : nat * toks :=
  match fuel with
  | O => (0, ts)
  | S fuel' =>
      match r_out (t_parser d ts) with
      | Err _ => (t_steps d ts, ts)
      | Ok _ rest _ =>
          match r_out (t_parser item rest) with
          | Err _ => (t_steps d ts + t_steps item rest, ts)
          | Ok _ rest' _ =>
              let '(k, last) := sep_steps fuel' item d rest' in
              (t_steps d ts + t_steps item rest + k, last)
          end
      end
  end.

(** The place after an optional delimiter. *)
Definition after {B} (d : timed B) (ts : toks) : toks :=
  match r_out (t_parser d ts) with Ok _ rest _ => rest | Err _ => ts end.

Definition t_separated {A B} (item : timed A) (d : timed B) : timed (list A) :=
  Timed (p_separated (t_parser item) (t_parser d))
    (fun ts =>
       let ts0 := after d ts in
       t_steps d ts + t_steps item ts0
       + match r_out (t_parser item ts0) with
         | Err _ => 0
         | Ok _ rest _ =>
             let '(k, last) := sep_steps (S (List.length ts)) item d rest in
             k + t_steps d last
         end).

(** ** Grammar.v, in the same order *)

Local Open Scope N_scope.

(** src/grammar.rs:42-48 [begin_comment]. *)
Definition t_begin_comment (which : char) : timed unit :=
  t_ignore_then (t_map_err with_no_expected (t_just 0x2F)) (t_ignored (t_just which)).

(** src/grammar.rs:50-61 [newline]. *)
Definition t_newline : timed unit :=
  t_map_err (with_expected_kind (str "newline"))
    (t_ignored
      (t_or (t_or (t_or (t_or (t_or
        (t_ignore_then (t_or_not (t_just 0x0D)) (t_just 0x0A))
        (t_just 0x0D))
        (t_just 0x0C))
        (t_just 0x85))
        (t_just 0x2028))
        (t_just 0x2029))).

(** src/grammar.rs:63-115: the character classes. *)
Definition t_ws_char : timed unit := t_ignored (t_filter is_ws_char).
Definition t_id_char : timed char :=
  t_map_err (with_expected_kind (str "letter")) (t_filter is_id_char).
Definition t_id_sans_dig : timed char :=
  t_map_err (with_expected_kind (str "letter")) (t_filter is_id_sans_dig).
Definition t_id_sans_sign_dig : timed char :=
  t_map_err (with_expected_kind (str "letter")) (t_filter is_id_sans_sign_dig).

(** src/grammar.rs:127-153 [ml_comment]. *)
Definition t_ml_body (comment : timed unit) : timed unit :=
  t_delimited
    (t_ignored (t_repeated
      (t_choice
        [ comment;
          t_ignored (t_none_of 0x2A);
          t_ignored (t_then_ignore (t_just 0x2A) (t_rewind (t_none_of 0x2F)))
        ])))
    (t_begin_comment 0x2A)
    (t_just_str (str "*/")).

Fixpoint ml_comment_steps (fuel : nat) : toks -> nat :=
  match fuel with
  | O => fun _ => 0%nat
  | S fuel' =>
      t_steps (t_ml_body (Timed (ml_comment_rec fuel') (ml_comment_steps fuel')))
  end.

Definition t_ml_comment : timed unit :=
  Timed ml_comment (fun ts => ml_comment_steps (S (List.length ts)) ts).

(** src/grammar.rs:117-120 [ws]. *)
Definition t_ws : timed unit :=
  t_map_err (with_expected_kind (str "whitespace"))
    (t_or (t_ignored (t_repeat 1 None t_ws_char)) t_ml_comment).

(** src/grammar.rs:122-125 [comment]. *)
Definition t_comment : timed unit :=
  t_ignored (t_then (t_begin_comment 0x2F) (t_take_until (t_or t_newline t_end))).

(** src/grammar.rs:155-184 [raw_string]. *)
Definition t_raw_string : timed text :=
  t_map (fun r => fst (snd r))
    (t_bind
      (t_then_ignore
        (t_ignore_then (t_just 0x72)
          (t_map (@List.length char) (t_repeated (t_just 0x23))))
        (t_just 0x22))
      (fun sharp_num =>
        t_map_err_with_span (raw_string_err sharp_num)
          (t_take_until
            (t_ignore_then (t_just 0x22)
              (t_ignored (t_exactly sharp_num (t_just 0x23))))))).

(** src/grammar.rs:194-234 [esc_char]. *)
Definition t_esc_char : timed char :=
  t_or (t_filter_map esc_simple)
    (t_ignore_then (t_just 0x75)
      (t_recover_skip_until esc_stop 0
        (t_try_map esc_code
          (t_delimited (t_repeat 1 (Some 6%nat) (t_filter_map esc_hex))
                       (t_just 0x7B) (t_just 0x7D))))).

(** src/grammar.rs:236-260 [escaped_string]. *)
Definition t_escaped_string : timed text :=
  t_ignore_then (t_just 0x22)
    (t_map_err_with_span string_err
      (t_then_ignore
        (t_repeated
          (t_or (t_filter (fun c => negb (c =? 0x22) && negb (c =? 0x5C)))
                (t_ignore_then (t_just 0x5C) t_esc_char)))
        (t_just 0x22))).

(** src/grammar.rs:186-188 [string]. *)
Definition t_string : timed text := t_or t_raw_string t_escaped_string.

(** src/grammar.rs:262-292 [bare_ident]. *)
Definition t_plus_minus : timed char := t_or (t_just 0x2B) (t_just 0x2D).
Definition t_bare_ident : timed text :=
  t_try_map not_keyword
    (t_choice
      [ t_map cons2 (t_then t_plus_minus
          (t_map cons2 (t_then t_id_sans_dig (t_repeated t_id_char))));
        t_exactly 1 t_plus_minus;
        t_map cons2 (t_then t_id_sans_sign_dig (t_repeated t_id_char)) ]).

(** src/grammar.rs:325-373: numbers. *)
Definition t_digit (radix : N) : timed char := t_filter (is_digit radix).
Definition t_digits (radix : N) : timed text :=
  t_repeated (t_filter (fun c => (c =? 0x5F) || is_digit radix c)).
Definition t_opt_sign : timed (option char) :=
  t_or_not (t_or (t_just 0x2D) (t_just 0x2B)).
Definition t_fraction : timed text :=
  t_map opt_flat (t_or_not
    (t_map app2 (t_then
      (t_map (fun r => [fst r; snd r]) (t_then (t_just 0x2E) (t_digit 10)))
      (t_digits 10)))).
Definition t_exponent : timed text :=
  t_map opt_flat (t_or_not
    (t_map app2 (t_then
      (t_map (fun r => fst r :: opt_list (snd r))
        (t_then (t_or (t_just 0x65) (t_just 0x45)) t_opt_sign))
      (t_digits 10)))).
Definition t_decimal_number : timed literal :=
  t_map decimal_literal
    (t_map app2 (t_then
      (t_map app2 (t_then
        (t_map app2 (t_then
          (t_map (fun r => opt_list (fst r) ++ [snd r])
            (t_then t_opt_sign (t_digit 10)))
          (t_digits 10)))
        t_fraction))
      t_exponent)).
Definition t_radix_digits (prefix : char) (n : N) (r : radix)
  : timed (radix * text) :=
  t_ignore_then (t_just prefix)
    (t_map (fun s => (r, s))
      (t_map cons2 (t_then (t_digit n) (t_digits n)))).
Definition t_radix_number : timed literal :=
  t_map (fun r =>
      LInt (fst (snd r)) (opt_list (fst r) ++ no_underscore (snd (snd r))))
    (t_then
      (t_then_ignore t_opt_sign (t_just 0x30))
      (t_choice [ t_radix_digits 0x62 2 Bin;
                  t_radix_digits 0x6F 8 Oct;
                  t_radix_digits 0x78 16 Hex ])).
Definition t_number : timed literal := t_or t_radix_number t_decimal_number.

(** src/grammar.rs:294-309 [ident]. *)
Definition t_ident : timed text :=
  t_try_map not_number
    (t_choice [ t_map inl t_number; t_map inr t_bare_ident; t_map inr t_string ]).

(** src/grammar.rs:311-323 [keyword]. *)
Definition t_keyword1 (s : string) (l : literal) : timed literal :=
  t_map (fun _ => l)
    (t_map_err (with_expected_token (str s)) (t_just_str (str s))).
Definition t_keyword : timed literal :=
  t_choice [ t_keyword1 "null" LNull;
             t_keyword1 "true" (LBool true);
             t_keyword1 "false" (LBool false) ].

(** src/grammar.rs:375-381 [literal]. *)
Definition t_literal : timed literal :=
  t_choice [ t_map LString t_string; t_keyword; t_number ].

(** src/grammar.rs:383-385 [type_name]. *)
Definition t_type_name : timed typename :=
  t_map typename_from_string (t_delimited t_ident (t_just 0x28) (t_just 0x29)).

(** src/grammar.rs:387-392 [spanned]. *)
Definition t_spanned {T} (p : timed T) : timed (spanned T Sp) :=
  t_map_with_span (fun value span => Spanned span value) p.

(** src/grammar.rs:394-406: spaces and terminators. *)
Definition t_esc_line : timed unit :=
  t_ignore_then (t_ignore_then (t_just 0x5C) (t_repeated t_ws))
                (t_or t_comment t_newline).
Definition t_node_space : timed unit := t_or t_ws t_esc_line.
Definition t_node_terminator : timed unit :=
  t_choice [ t_newline; t_comment; t_ignored (t_just 0x3B); t_end ].

(** src/grammar.rs:414-422: values. *)
Definition t_type_name_value : timed (value Sp) :=
  t_map (fun r => Value (Some (fst r)) (snd r))
    (t_then (t_spanned t_type_name) (t_spanned t_literal)).
Definition t_value : timed (value Sp) :=
  t_or t_type_name_value (t_map (fun l => Value None l) (t_spanned t_literal)).
Definition t_opt_value : timed (option (value Sp)) :=
  t_or_not (t_ignore_then (t_just 0x3D) t_value).

(** src/grammar.rs:424-504: arguments and properties. *)
Definition t_prop_or_arg_inner : timed prop_or_arg_t :=
  t_choice
    [ t_try_map literal_item (t_then (t_spanned t_literal) t_opt_value);
      t_map ident_item
        (t_validate ident_item_check
          (t_then (t_spanned t_bare_ident) t_opt_value));
      t_map Arg_ t_type_name_value ].
Definition t_prop_or_arg : timed prop_or_arg_t :=
  t_or
    (t_map (fun _ => Ignore_)
      (t_ignore_then
        (t_ignore_then (t_begin_comment 0x2D) (t_repeated t_node_space))
        t_prop_or_arg_inner))
    t_prop_or_arg_inner.

(** src/grammar.rs:506-508 [line_space]. *)
Definition t_line_space : timed unit := t_or (t_or t_newline t_ws) t_comment.

(** src/grammar.rs:511-589 [nodes]. *)
Definition t_braced_nodes (nodes : timed (list (snode Sp)))
  : timed (list (snode Sp)) :=
  t_ignore_then (t_just 0x7B)
    (t_map_err_with_span braces_err (t_then_ignore nodes (t_just 0x7D))).
Definition t_slashdash : timed (option unit) :=
  t_or_not (t_then_ignore (t_begin_comment 0x2D) (t_repeated t_node_space)).
Definition t_node_items : timed (list prop_or_arg_t) :=
  t_repeated (t_ignore_then (t_repeat 1 None t_node_space) t_prop_or_arg).
Definition t_opt_children (nodes : timed (list (snode Sp)))
  : timed (option (option unit * spanned (list (snode Sp)) Sp)) :=
  t_or_not
    (t_then (t_ignore_then (t_repeated t_node_space) t_slashdash)
            (t_spanned (t_braced_nodes nodes))).
Definition t_node (nodes : timed (list (snode Sp))) : timed (node Sp) :=
  t_map make_node
    (t_then_ignore
      (t_then
        (t_then
          (t_then (t_or_not (t_spanned t_type_name)) (t_spanned t_ident))
          t_node_items)
        (t_opt_children nodes))
      (t_then (t_repeated t_node_space) t_node_terminator)).
Definition t_nodes_body (nodes : timed (list (snode Sp)))
  : timed (list (snode Sp)) :=
  t_map (flat_map keep_node)
    (t_separated (t_then t_slashdash (t_spanned (t_node nodes)))
                 (t_repeated t_line_space)).

Fixpoint nodes_steps (fuel : nat) : toks -> nat :=
  match fuel with
  | O => fun _ => 0%nat
  | S fuel' => t_steps (t_nodes_body (Timed (nodes_rec fuel') (nodes_steps fuel')))
  end.

Definition t_nodes : timed (list (snode Sp)) :=
  Timed nodes (fun ts => nodes_steps (S (List.length ts)) ts).

(** src/grammar.rs:591-595 [document]. *)
Definition t_document : timed (document Sp) := t_then_ignore t_nodes t_end.

End Steps.

Arguments timed : clear implicits.
Arguments Timed {Sp A}.
Arguments t_parser {Sp A}.
Arguments t_steps {Sp A}.

(** src/wrappers.rs:13-24: the steps of [parse_ast]. *)
Definition parse_steps (t : text) : nat :=
  let '(ts, eoi) := span_stream t in
  t_steps (@t_document span (span_env eoi)) ts.
