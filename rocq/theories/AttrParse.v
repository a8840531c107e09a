(** Model of the token-level part of derive/src/definition.rs: how the [#[knuffel(..)]]
    attributes of an item, of its variants and of its fields are read.

    Tokens are those of [proc_macro2].  A raw identifier has its [r#]; groups without
    delimiters, which only other macros make, are left out.  [syn::Expr] and
    [syn::Type] are external: [parse_expr] and [parse_type] are parameters that return
    what is left of the input.  An expression stands for its value.  The texts of
    [syn]'s own syntax errors are not modelled. *)

From Coq Require Import NArith List Bool String.
From Verif Require Import Chars Ast Errors Chumsky Decode Scalar DeriveDef Derive.
Import ListNotations.

Inductive delimiter := Parenthesis | Bracket | Brace.

Inductive token :=
| TkIdent (name : text)
| TkPunct (c : N)
| TkStr (s : text)
| TkLit
| TkGroup (d : delimiter) (ts : list token).

Definition comma : N := 44.
Definition equals : N := 61.

(** [syn::Result] of a parser.  [PFuel] is for Coq only; AttrProps.v shows that it does
    not come up. *)
Inductive presult (A : Type) := PDone (a : A) | PFail | PFuel.
Arguments PDone {A}.
Arguments PFail {A}.
Arguments PFuel {A}.

(** A parser that may call [emit_error!]: what it emits, and its result. *)
Definition parser (A : Type) : Type := list token -> list text * presult A.

(** [input.is_empty()] or [input.lookahead1().peek(syn::Token![,])], the negation of
    the conditions of definition.rs:810, 830 and 883. *)
Definition at_end (input : list token) : bool :=
  match input with
  | [] => true
  | TkPunct c :: _ => N.eqb c comma
  | _ => false
  end.

(** [Punctuated::parse_terminated_with], for commas: elements up to the end of the input, with a
    comma after each but perhaps the last. *)
Fixpoint parse_terminated {A} (p : parser (A * list token)) (fuel : nat) : parser (list A) :=
  fun input =>
  match fuel with
  | O => ([], PFuel)
  | S fuel' =>
      match input with
      | [] => ([], PDone [])
      | _ :: _ =>
          match p input with
          | (em, PDone (a, rest)) =>
              match rest with
              | [] => (em, PDone [a])
              | TkPunct c :: rest' =>
                  if N.eqb c comma then
                    match parse_terminated p fuel' rest' with
                    | (em', PDone l) => (em ++ em', PDone (a :: l))
                    | (em', PFail) => (em ++ em', PFail)
                    | (em', PFuel) => (em ++ em', PFuel)
                    end
                  else (em, PFail)
              | _ => (em, PFail)
              end
          | (em, PFail) => (em, PFail)
          | (em, PFuel) => (em, PFuel)
          end
      end
  end.

(** definition.rs:810-822 and 830-842: the optional [(name="..")]. A group that is not
    read to its end is an error. *)
Definition parse_name (input : list token) : presult (option text * list token) :=
  if at_end input then PDone (None, input)
  else match input with
       | TkGroup Parenthesis [TkIdent k; TkPunct e; TkStr s] :: rest =>
           if text_eqb k (str "name") && N.eqb e equals then PDone (Some s, rest) else PFail
       | _ => PFail
       end.

(** definition.rs:910-923 [FlattenItem]: [true] is [child]. *)
Definition flatten_item : parser (bool * list token) :=
  fun input =>
  match input with
  | TkIdent k :: rest =>
      if text_eqb k (str "child") then ([], PDone (true, rest))
      else if text_eqb k (str "property") then ([], PDone (false, rest))
      else ([], PFail)
  | _ => ([], PFail)
  end.

Section Tokens.
Context {L : Type}.
Variable parse_expr : list token -> option (dval L * list token).
Variable parse_type : list token -> option (unit * list token).

(** The value of a bare [default]. *)
Variable bare : dval L.

(** definition.rs:794-908 [Attr::parse] and [Attr::_parse]; [nested] is [parse_attrs]. *)
Definition attr_parse (nested : parser (list (attr L))) : parser (attr L * list token) :=
  fun input =>
  let done (a : attr L) rest : list text * presult (attr L * list token) := ([], PDone (a, rest)) in
  match input with
  | TkIdent k :: rest =>
      if text_eqb k (str "argument") then done (AFieldMode FmArgument) rest
      else if text_eqb k (str "arguments") then done (AFieldMode FmArguments) rest
      else if text_eqb k (str "property") then
        match parse_name rest with
        | PDone (name, rest') => done (AFieldMode (FmProperty name)) rest'
        | PFail => ([], PFail)
        | PFuel => ([], PFuel)
        end
      else if text_eqb k (str "properties") then done (AFieldMode FmProperties) rest
      else if text_eqb k (str "children") then
        match parse_name rest with
        | PDone (name, rest') => done (AFieldMode (FmChildren name)) rest'
        | PFail => ([], PFail)
        | PFuel => ([], PFuel)
        end
      else if text_eqb k (str "child") then done (AFieldMode FmChild) rest
      else if text_eqb k (str "unwrap") then
        match rest with
        | TkGroup Parenthesis ts :: rest' =>
            match nested ts with
            | (em, PDone l) =>
                let '(a, em') := attrs_update l in (em ++ em', PDone (AUnwrap a, rest'))
            | (em, PFail) => (em, PFail)
            | (em, PFuel) => (em, PFuel)
            end
        | _ => ([], PFail)
        end
      else if text_eqb k (str "skip") then done ASkip rest
      else if text_eqb k (str "str") then done (ADecodeMode DmStr) rest
      else if text_eqb k (str "bytes") then done (ADecodeMode DmBytes) rest
      else if text_eqb k (str "flatten") then
        match rest with
        | TkGroup Parenthesis ts :: rest' =>
            match parse_terminated flatten_item (S (List.length ts)) ts with
            | (em, PDone l) =>
                (em, PDone (AFieldMode (FmFlatten (existsb (fun c => c) l) (existsb negb l)), rest'))
            | (em, PFail) => (em, PFail)
            | (em, PFuel) => (em, PFuel)
            end
        | _ => ([], PFail)
        end
      else if text_eqb k (str "default") then
        if at_end rest then done (ADefault bare) rest
        else match rest with
             | TkPunct e :: ts =>
                 if N.eqb e equals then
                   match parse_expr ts with
                   | Some (v, rest') => done (ADefault v) rest'
                   | None => ([], PFail)
                   end
                 else ([], PFail)
             | _ => ([], PFail)
             end
      else if text_eqb k (str "span") then done (AFieldMode FmSpan) rest
      else if text_eqb k (str "node_name") then done (AFieldMode FmNodeName) rest
      else if text_eqb k (str "type_name") then done (AFieldMode FmTypeName) rest
      else if text_eqb k (str "span_type") then
        match rest with
        | TkPunct e :: ts =>
            if N.eqb e equals then
              match parse_type ts with
              | Some (_, rest') => done ASpanType rest'
              | None => ([], PFail)
              end
            else ([], PFail)
        | _ => ([], PFail)
        end
      else ([], PFail)
  | _ => ([], PFail)
  end.

(** definition.rs:787-792 [parse_attrs].  The fuel is for the nesting of [unwrap]. *)
Fixpoint parse_attrs (fuel : nat) : parser (list (attr L)) :=
  fun input =>
  match fuel with
  | O => ([], PFuel)
  | S fuel' => parse_terminated (attr_parse (parse_attrs fuel')) (S (List.length input)) input
  end.

(** How deep groups are nested. *)
Fixpoint token_depth (t : token) : nat :=
  match t with
  | TkGroup _ ts => S ((fix deep l := match l with [] => 0 | x :: l' => Nat.max (token_depth x) (deep l') end) ts)
  | _ => 0
  end.

Fixpoint tokens_depth (ts : list token) : nat :=
  match ts with [] => 0 | t :: ts' => Nat.max (token_depth t) (tokens_depth ts') end.

(** [syn::Attribute]: whether it is an outer one, the path as in [rust_type], and
    the tokens after the path. *)
Record attribute := Attribute {
  at_outer : bool;
  at_leading_colon : bool;
  at_segments : list (text * bool);
  at_tokens : list token;
}.

(** [attr.path.is_ident("knuffel")]. *)
Definition is_knuffel (a : attribute) : bool :=
  match at_leading_colon a, at_segments a with
  | false, [(s, false)] => text_eqb s (str "knuffel")
  | _, _ => false
  end.

Definition syntax_error : text := str "syntax error".

(** [Attribute::parse_args_with]: one group, with any delimiters, read to its end. *)
Definition parse_args (a : attribute) : list text * presult (list (attr L)) :=
  match at_tokens a with
  | [TkGroup _ ts] => parse_attrs (S (tokens_depth ts)) ts
  | _ => ([], PFail)
  end.

(** definition.rs:771-785 [parse_attr_list]: the attributes, and the emitted errors. *)
Fixpoint parse_attr_list (attrs : list attribute) : list (attr L) * list text :=
  match attrs with
  | [] => ([], [])
  | a :: attrs' =>
      let '(l', em') := parse_attr_list attrs' in
      if at_outer a && is_knuffel a then
        match parse_args a with
        | (em, PDone l) => (l ++ l', em ++ em')
        | (em, _) => (l', em ++ syntax_error :: em')
        end
      else (l', em')
  end.

End Tokens.

(** ** Items as they are written *)

(** The value of a bare [default] depends on the field. *)
Record tok_field (Sp L : Type) := TokField {
  tf_name : option text;
  tf_type : rust_type;
  tf_impl : tyimpl Sp L;
  tf_default : dval L;
  tf_attrs : list attribute;
}.
Arguments TokField {Sp L}.
Arguments tf_name {Sp L}.
Arguments tf_type {Sp L}.
Arguments tf_impl {Sp L}.
Arguments tf_default {Sp L}.
Arguments tf_attrs {Sp L}.

Inductive tok_fields (Sp L : Type) :=
| KNamed (fs : list (tok_field Sp L))
| KUnnamed (fs : list (tok_field Sp L))
| KUnit.
Arguments KNamed {Sp L}.
Arguments KUnnamed {Sp L}.
Arguments KUnit {Sp L}.

Record tok_variant (Sp L : Type) := TokVariant {
  tv_ident : text;
  tv_attrs : list attribute;
  tv_fields : tok_fields Sp L;
}.
Arguments TokVariant {Sp L}.
Arguments tv_ident {Sp L}.
Arguments tv_attrs {Sp L}.
Arguments tv_fields {Sp L}.

Inductive tok_item (Sp L : Type) :=
| TokStruct (ident : text) (attrs : list attribute) (fs : tok_fields Sp L)
| TokEnum (ident : text) (attrs : list attribute) (vs : list (tok_variant Sp L)).
Arguments TokStruct {Sp L}.
Arguments TokEnum {Sp L}.

Section Items.
Context {Sp L : Type}.
Variable parse_expr : list token -> option (dval L * list token).
Variable parse_type : list token -> option (unit * list token).

(** definition.rs:597-600: the attributes of a field. *)
Definition read_field (f : tok_field Sp L) : src_field Sp L * list text :=
  let '(l, em) := parse_attr_list parse_expr parse_type (tf_default f) (tf_attrs f) in
  (SrcField (tf_name f) (tf_type f) (tf_impl f) l, em).

Definition read_list {A B} (p : A -> B * list text) (l : list A) : list B * list text :=
  (map (fun x => fst (p x)) l, flat_map (fun x => snd (p x)) l).

Definition read_fields (fs : tok_fields Sp L) : src_fields Sp L * list text :=
  match fs with
  | KNamed l => let '(l', em) := read_list read_field l in (FNamed l', em)
  | KUnnamed l => let '(l', em) := read_list read_field l in (FUnnamed l', em)
  | KUnit => (FUnit, [])
  end.

(** definition.rs:305-309: the attributes of the fields of a skipped variant are not
    looked at.  Those of variants and containers cannot use a bare [default]. *)
Definition read_variant (v : tok_variant Sp L) : src_variant Sp L * list text :=
  let '(l, em) := parse_attr_list parse_expr parse_type VNone (tv_attrs v) in
  if variant_skip l then (SrcVariant (tv_ident v) l FUnit, em)
  else
    let '(fs, em') := read_fields (tv_fields v) in
    (SrcVariant (tv_ident v) l fs, em ++ em').

(** definition.rs:296-302 and 627-638: the attributes of the container. *)
Definition read_item (i : tok_item Sp L) : src_item Sp L * list text :=
  match i with
  | TokStruct ident attrs fs =>
      let '(l, em) := parse_attr_list parse_expr parse_type VNone attrs in
      let '(fs', em') := read_fields fs in
      (SrcStruct ident l fs', em ++ em')
  | TokEnum ident attrs vs =>
      let '(l, em) := parse_attr_list parse_expr parse_type VNone attrs in
      let '(vs', em') := read_list read_variant vs in
      (SrcEnum ident l vs', em ++ em')
  end.

(** derive/src/lib.rs:23-34 [decode_derive]: any emitted error makes the macro fail. *)
Definition derive_tokens (kebab : text -> text) (i : tok_item Sp L) : option (derived Sp L) :=
  match read_item i with
  | (i', []) => decode_derive kebab i'
  | _ => None
  end.

End Items.
