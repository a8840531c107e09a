(** Model of the decoding layer: [DecodeError] of src/errors.rs, [Context],
    [Kind], [bytes], [check_flag_node] and [node] of src/decode.rs, the traits of
    src/traits.rs, and src/wrappers.rs. *)

From Coq Require Import NArith List Bool String.
From Verif Require Import Chars Ast Errors Chumsky.
Import ListNotations.
Local Open Scope N_scope.

(** src/decode.rs:28-44 [Kind]. *)
Inductive kind := KInt | KDecimal | KString | KBool | KNull.

(** src/decode.rs:203-215 [From<&Literal> for Kind]. *)
Definition kind_of (l : literal) : kind :=
  match l with
  | LInt _ _ => KInt
  | LDecimal _ => KDecimal
  | LString _ => KString
  | LBool _ => KBool
  | LNull => KNull
  end.

(** src/decode.rs:217-231 [Kind::as_str]. *)
Definition kind_as_str (k : kind) : text :=
  match k with
  | KInt => str "integer"
  | KDecimal => str "decimal"
  | KString => str "string"
  | KBool => str "boolean"
  | KNull => str "null"
  end.

(** [core::num::IntErrorKind], the kinds [from_str_radix] can return. *)
Inductive int_error := IEmpty | IInvalidDigit | IPosOverflow | INegOverflow.

(** [Box<dyn Error>], the source of a conversion error.  [SOther] stands for the
    error values of external code, which are opaque. *)
Inductive source :=
| SInt (e : int_error)
| SMsg (t : text)
| SOther (code : N).

(** src/errors.rs:464-494 [ExpectedType]. *)
Record expected_type := ExpectedType { et_types : list typename; et_no_type : bool }.

Definition et_no_types : expected_type := ExpectedType [] true.
Definition et_required (t : typename) : expected_type := ExpectedType [t] false.
Definition et_optional (t : typename) : expected_type := ExpectedType [t] true.

(** src/errors.rs:39-147 [DecodeError]. *)
Inductive derror (Sp : Type) :=
| DTypeName (sp : Sp) (found : option typename) (expected : expected_type) (rust_type : text)
| DScalarKind (sp : Sp) (expected found : kind)
| DMissing (sp : Sp) (message : text)
| DMissingNode (message : text)
| DUnexpected (sp : Sp) (what : text) (message : text)
| DConversion (sp : Sp) (src : source)
| DUnsupported (sp : Sp) (message : text)
| DCustom (src : source).
Arguments DTypeName {Sp}.
Arguments DScalarKind {Sp}.
Arguments DMissing {Sp}.
Arguments DMissingNode {Sp}.
Arguments DUnexpected {Sp}.
Arguments DConversion {Sp}.
Arguments DUnsupported {Sp}.
Arguments DCustom {Sp}.

(** src/errors.rs:392-400 [DecodeError::conversion]. *)
Definition conversion {T Sp} (s : spanned T Sp) (e : source) : derror Sp :=
  DConversion (s_span s) e.

(** src/errors.rs:401-408 [DecodeError::scalar_kind]. *)
Definition scalar_kind {Sp} (expected : kind) (found : spanned literal Sp) : derror Sp :=
  DScalarKind (s_span found) expected (kind_of (s_value found)).

(** src/errors.rs:409-415 [DecodeError::missing]. *)
Definition missing {Sp} (n : snode Sp) (message : text) : derror Sp :=
  DMissing (s_span (n_node_name (s_value n))) message.

(** src/errors.rs:416-426 [DecodeError::unexpected]. *)
Definition unexpected {T Sp} (elem : spanned T Sp) (what message : text) : derror Sp :=
  DUnexpected (s_span elem) what message.

(** src/decode.rs:18-22 [Context].  A type is named by a number (its [TypeId]);
    a stored value is named by a number too. *)
Record context (Sp : Type) := Context {
  c_errors : list (derror Sp);
  c_ext : list (N * N);
}.
Arguments Context {Sp}.
Arguments c_errors {Sp}.
Arguments c_ext {Sp}.

(** src/decode.rs:153-158 [Context::new]. *)
Definition context_new {Sp} : context Sp := Context [] [].

(** src/decode.rs:164-166 [Context::emit_error]. *)
Definition emit_error {Sp} (e : derror Sp) (c : context Sp) : context Sp :=
  Context (c_errors c ++ [e]) (c_ext c).

(** src/decode.rs:168-170 [Context::has_errors]. *)
Definition has_errors {Sp} (c : context Sp) : bool :=
  match c_errors c with [] => false | _ :: _ => true end.

(** src/decode.rs:171-173 [Context::into_errors]. *)
Definition into_errors {Sp} (c : context Sp) : list (derror Sp) := c_errors c.

(** [HashMap::insert] and [HashMap::get], on an association list. *)
Fixpoint ext_insert (k v : N) (m : list (N * N)) : list (N * N) :=
  match m with
  | [] => [(k, v)]
  | (k', v') :: m' => if k =? k' then (k', v) :: m' else (k', v') :: ext_insert k v m'
  end.

Fixpoint ext_get (k : N) (m : list (N * N)) : option N :=
  match m with
  | [] => None
  | (k', v') :: m' => if k =? k' then Some v' else ext_get k m'
  end.

(** src/decode.rs:185-187 [Context::set]. *)
Definition context_set {Sp} (ty v : N) (c : context Sp) : context Sp :=
  Context (c_errors c) (ext_insert ty v (c_ext c)).

(** src/decode.rs:191-194 [Context::get]: the downcast to the type of the key
    always succeeds. *)
Definition context_get {Sp} (ty : N) (c : context Sp) : option N := ext_get ty (c_ext c).

(** The result of a decoder: a value, a [DecodeError], or a panic. *)
Inductive dout (Sp A : Type) :=
| DOk (a : A)
| DErr (e : derror Sp)
| DPanic.
Arguments DOk {Sp A}.
Arguments DErr {Sp A}.
Arguments DPanic {Sp A}.

(** A function that takes [&mut Context] and returns a [Result]. *)
Definition dec (Sp A : Type) := context Sp -> context Sp * dout Sp A.

Definition d_ok {Sp A} (a : A) : dec Sp A := fun c => (c, DOk a).
Definition d_err {Sp A} (e : derror Sp) : dec Sp A := fun c => (c, DErr e).
Definition d_panic {Sp A} : dec Sp A := fun c => (c, DPanic).
Definition d_emit {Sp} (e : derror Sp) : dec Sp unit := fun c => (emit_error e c, DOk tt).

(** The [?] operator: go on with the value, or return the error. *)
Definition d_bind {Sp A B} (m : dec Sp A) (f : A -> dec Sp B) : dec Sp B :=
  fun c => match m c with
           | (c', DOk a) => f a c'
           | (c', DErr e) => (c', DErr e)
           | (c', DPanic) => (c', DPanic)
           end.

(** [Result::map]. *)
Definition d_map {Sp A B} (f : A -> B) (m : dec Sp A) : dec Sp B :=
  d_bind m (fun a => d_ok (f a)).

(** [collect::<Result<_, _>>()] of a [map]: stops at the first error. *)
Fixpoint d_collect {Sp A B} (f : A -> dec Sp B) (l : list A) : dec Sp (list B) :=
  match l with
  | [] => d_ok []
  | a :: l' => d_bind (f a) (fun b => d_bind (d_collect f l') (fun bs => d_ok (b :: bs)))
  end.

(** src/traits.rs:16-20 [Decode], src/traits.rs:23-27 [DecodeChildren] and
    src/traits.rs:85-92 [DecodeSpan]. *)
Definition node_impl (Sp A : Type) := snode Sp -> dec Sp A.
Definition children_impl (Sp A : Type) := list (snode Sp) -> dec Sp A.
Definition span_impl (Sp A : Type) := Sp -> context Sp -> context Sp * A.

(** src/traits.rs:56-81 [DecodeScalar]; [sc_decode] is part of the record because
    an implementation may override it (src/convert_ast.rs does). *)
Record scalar_impl (Sp A : Type) := ScalarImpl {
  sc_type_check : option (spanned typename Sp) -> context Sp -> context Sp;
  sc_raw_decode : spanned literal Sp -> dec Sp A;
  sc_decode : value Sp -> dec Sp A;
}.
Arguments ScalarImpl {Sp A}.
Arguments sc_type_check {Sp A}.
Arguments sc_raw_decode {Sp A}.
Arguments sc_decode {Sp A}.

(** src/traits.rs:75-80, the provided method [decode]. *)
Definition default_decode {Sp A} (tc : option (spanned typename Sp) -> context Sp -> context Sp)
    (rd : spanned literal Sp -> dec Sp A) (v : value Sp) : dec Sp A :=
  fun c => rd (v_literal v) (tc (v_type_name v) c).

Definition scalar_default {Sp A} tc (rd : spanned literal Sp -> dec Sp A) : scalar_impl Sp A :=
  ScalarImpl tc rd (default_decode tc rd).

(** [str::as_bytes]: the UTF-8 encoding. *)
Definition utf8_char (c : char) : list N :=
  if c <? 0x80 then [c]
  else if c <? 0x800 then [0xC0 + c / 0x40; 0x80 + c mod 0x40]
  else if c <? 0x10000 then
    [0xE0 + c / 0x1000; 0x80 + (c / 0x40) mod 0x40; 0x80 + c mod 0x40]
  else
    [0xF0 + c / 0x40000; 0x80 + (c / 0x1000) mod 0x40; 0x80 + (c / 0x40) mod 0x40;
     0x80 + c mod 0x40].

Definition utf8 (t : text) : list N := flat_map utf8_char t.

(** The alphabet of the [base64] crate's STANDARD engine (RFC 4648, table 1). *)
Definition b64_digit (c : N) : option N :=
  if (0x41 <=? c) && (c <=? 0x5A) then Some (c - 0x41)
  else if (0x61 <=? c) && (c <=? 0x7A) then Some (c - 0x61 + 26)
  else if (0x30 <=? c) && (c <=? 0x39) then Some (c - 0x30 + 52)
  else if c =? 0x2B then Some 62
  else if c =? 0x2F then Some 63
  else None.

(** [STANDARD.decode]: groups of four digits, canonical padding required in the
    last group, the unused bits of the last digit zero.  The crate is not in
    /repo; this is its documented behaviour.  Its error values are opaque. *)
Fixpoint b64_decode (s : list N) : option (list N) :=
  match s with
  | [] => Some []
  | a :: b :: c :: d :: rest =>
      match b64_digit a, b64_digit b with
      | Some x, Some y =>
          if (c =? 0x3D) && (d =? 0x3D) && match rest with [] => true | _ => false end then
            if y mod 16 =? 0 then Some [x * 4 + y / 16] else None
          else
            match b64_digit c with
            | None => None
            | Some z =>
                if (d =? 0x3D) && match rest with [] => true | _ => false end then
                  if z mod 4 =? 0 then Some [x * 4 + y / 16; (y mod 16) * 16 + z / 4] else None
                else
                  match b64_digit d, b64_decode rest with
                  | Some w, Some r =>
                      Some (x * 4 + y / 16 :: (y mod 16) * 16 + z / 4 :: (z mod 4) * 64 + w :: r)
                  | _, _ => None
                  end
            end
      | _, _ => None
      end
  | _ => None
  end.

(** src/decode.rs:49-100 [bytes], with the feature [base64], which is on by
    default.  It has no [Result]. *)
Definition bytes {Sp} (v : value Sp) (c : context Sp) : context Sp * list N :=
  match v_type_name v with
  | Some typ =>
      match typename_as_builtin (s_value typ) with
      | Some Base64 =>
          match s_value (v_literal v) with
          | LString s =>
              match b64_decode (utf8 s) with
              | Some b => (c, b)
              | None => (emit_error (conversion (v_literal v) (SOther 64)) c, [])
              end
          | _ => (emit_error (scalar_kind KString (v_literal v)) c, [])
          end
      | _ =>
          (emit_error (DTypeName (s_span typ) (Some (s_value typ)) (et_optional (Builtin Base64))
             (str "bytes")) c, [])
      end
  | None =>
      match s_value (v_literal v) with
      | LString s => (c, utf8 s)
      | _ => (emit_error (scalar_kind KString (v_literal v)) c, [])
      end
  end.

Definition backquoted (prefix name : text) : text :=
  prefix ++ 0x60 :: escape_default name ++ [0x60].

(** The loops of src/decode.rs:111-131, shared with the unit variants of
    derive/src/variants.rs:66-92, which repeat the same text. *)
Definition unexpected_arg {Sp} (v : value Sp) : derror Sp :=
  unexpected (v_literal v) (str "argument") (str "unexpected argument").
Definition unexpected_prop {Sp} (k : spanned text Sp) : derror Sp :=
  unexpected k (str "property") (backquoted (str "unexpected property ") (s_value k)).
Definition unexpected_node {Sp} (n : snode Sp) : derror Sp :=
  unexpected n (str "node")
    (backquoted (str "unexpected node ") (s_value (n_node_name (s_value n)))).

(** src/decode.rs:108-132 [check_flag_node]. *)
Definition check_flag_node {Sp} (n : snode Sp) (c : context Sp) : context Sp :=
  let c1 := fold_left (fun c v => emit_error (unexpected_arg v) c) (n_arguments (s_value n)) c in
  let c2 := fold_left (fun c kv => emit_error (unexpected_prop (fst kv)) c)
              (n_properties (s_value n)) c1 in
  match n_children (s_value n) with
  | Some ch => fold_left (fun c n => emit_error (unexpected_node n) c) (s_value ch) c2
  | None => c2
  end.

(** [Result<T, Vec<DecodeError>>], or a panic. *)
Inductive decoded (Sp A : Type) :=
| Decoded (a : A)
| Failed (errs : list (derror Sp))
| DPanicked.
Arguments Decoded {Sp A}.
Arguments Failed {Sp A}.
Arguments DPanicked {Sp A}.

(** src/decode.rs:135-150 [node]. *)
Definition node_decode {Sp A} (d : node_impl Sp A) (ast : snode Sp) : decoded Sp A :=
  match d ast context_new with
  | (c, DOk v) => if has_errors c then Failed (into_errors c) else Decoded v
  | (c, DErr e) => Failed (into_errors (emit_error e c))
  | (_, DPanic) => DPanicked
  end.

(** The result of [parse_with_context]: the list of errors holds errors of the
    parser or errors of the decoder. *)
Inductive outcome_of (Sp A : Type) :=
| Value_of (a : A)
| Parse_errors (errs : list (perror Sp))
| Decode_errors (errs : list (derror Sp))
| Panic_of.
Arguments Value_of {Sp A}.
Arguments Parse_errors {Sp A}.
Arguments Decode_errors {Sp A}.
Arguments Panic_of {Sp A}.

(** src/wrappers.rs:35-59 [parse_with_context], given the result of [parse_ast]
    (src/wrappers.rs:13-24), which depends on the span type. *)
Definition parse_with_context {Sp A} (ast : parsed Sp (document Sp))
    (set_ctx : context Sp -> context Sp) (d : children_impl Sp A) : outcome_of Sp A :=
  match ast with
  | Parsed doc =>
      match d doc (set_ctx context_new) with
      | (c, DOk v) => if has_errors c then Decode_errors (into_errors c) else Value_of v
      | (c, DErr e) => Decode_errors (into_errors (emit_error e c))
      | (_, DPanic) => Panic_of
      end
  | Rejected errs => Parse_errors errs
  | Panicked => Panic_of
  end.

(** src/wrappers.rs:27-31 [parse]. *)
Definition parse {Sp A} (ast : parsed Sp (document Sp)) (d : children_impl Sp A)
  : outcome_of Sp A :=
  parse_with_context ast (fun c => c) d.
