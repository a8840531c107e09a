(** What the decoding layer should do, stated without its code. *)

From Coq Require Import NArith ZArith List Bool String.
From Verif Require Import Chars Ast Errors Chumsky Kdl Decode Scalar Containers.
Import ListNotations.
Local Open Scope N_scope.

(** ** Numbers *)

Definition radix_base (r : radix) : N :=
  match r with Bin => 2 | Oct => 8 | Dec => 10 | Hex => 16 end.

(** The number that a row of digits denotes. *)
Inductive digits_value (base : N) : text -> N -> Prop :=
| DV_nil : digits_value base [] 0
| DV_snoc ds v d x : digits_value base ds v -> digit_of base d x ->
    digits_value base (ds ++ [d]) (v * base + x).

(** The integer that a sign and digits denote. *)
Inductive integer_value (base : N) : text -> Z -> Prop :=
| IV_plain ds v : ds <> [] -> digits_value base ds v -> integer_value base ds (Z.of_N v)
| IV_plus ds v : ds <> [] -> digits_value base ds v ->
    integer_value base (0x2B :: ds) (Z.of_N v)
| IV_minus ds v : ds <> [] -> digits_value base ds v ->
    integer_value base (0x2D :: ds) (- Z.of_N v)%Z.

(** The ranges of the Rust types, written out. *)
Definition range (t : int_type) : Z * Z :=
  match t with
  | TI8 => (-128, 127)
  | TU8 => (0, 255)
  | TI16 => (-32768, 32767)
  | TU16 => (0, 65535)
  | TI32 => (-2147483648, 2147483647)
  | TU32 => (0, 4294967295)
  | TI64 | TIsize => (-9223372036854775808, 9223372036854775807)
  | TU64 | TUsize => (0, 18446744073709551615)
  end%Z.

Definition fits (t : int_type) (z : Z) : Prop := (fst (range t) <= z <= snd (range t))%Z.

(** The types whose range has negative numbers. *)
Definition takes_minus (t : int_type) : Prop := (fst (range t) < 0)%Z.

(** The Rust names of the number types. *)
Definition int_rust_name (t : int_type) : text :=
  str match t with
      | TI8 => "i8" | TU8 => "u8" | TI16 => "i16" | TU16 => "u16" | TI32 => "i32"
      | TU32 => "u32" | TI64 => "i64" | TU64 => "u64" | TIsize => "isize" | TUsize => "usize"
      end.

(** No type name, or the builtin type of that name. *)
Definition typed_as {Sp} (name : text) (ty : option (spanned typename Sp)) : Prop :=
  ty = None \/ exists sp b, ty = Some (Spanned sp (Builtin b)) /\ builtin_as_str b = name.

(** ** Errors *)

(** Decoding a value adds no error. *)
Definition decodes {Sp A} (m : dec Sp A) (c : context Sp) (a : A) : Prop := m c = (c, DOk a).

(** Decoding adds exactly one error, or returns one. *)
Definition complains {Sp A} (m : dec Sp A) (c : context Sp) (e : derror Sp) : Prop :=
  (exists a, m c = (Context (c_errors c ++ [e]) (c_ext c), DOk a)) \/ m c = (c, DErr e).

(** Decoders cannot take back errors: all the public interface of [Context] can do
    is add to them. *)
Definition adds_only {Sp A} (m : dec Sp A) : Prop :=
  forall c, exists es, c_errors (fst (m c)) = c_errors c ++ es.

(** Decoding added errors or returned one. *)
Definition fails {Sp A} (m : dec Sp A) (c : context Sp) : Prop :=
  match m c with
  | (c', DOk _) => exists e es, c_errors c' = c_errors c ++ e :: es
  | (_, DErr _) => True
  | (_, DPanic) => False
  end.

(** ** The context *)

(** What a user of the context can do. *)
Inductive ctx_op (Sp : Type) :=
| Op_set (ty v : N)
| Op_emit (e : derror Sp).
Arguments Op_set {Sp}.
Arguments Op_emit {Sp}.

Definition do_op {Sp} (c : context Sp) (o : ctx_op Sp) : context Sp :=
  match o with
  | Op_set ty v => context_set ty v c
  | Op_emit e => emit_error e c
  end.

(** The value of a type is the one set last. *)
Inductive last_set {Sp} (ty : N) : list (ctx_op Sp) -> option N -> Prop :=
| LS_none ops : (forall v, ~ In (Op_set ty v) ops) -> last_set ty ops None
| LS_some before v after : (forall w, ~ In (Op_set ty w) after) ->
    last_set ty (before ++ Op_set ty v :: after) (Some v).

(** The emitted errors, in order. *)
Definition emitted {Sp} (ops : list (ctx_op Sp)) : list (derror Sp) :=
  flat_map (fun o => match o with Op_emit e => [e] | Op_set _ _ => [] end) ops.

(** ** Lists of nodes *)

(** One pass over the nodes: each is decoded once, in order, in the context that
    the ones before it left; the error of a failing one is added. *)
Inductive one_pass {Sp A} (d : node_impl Sp A)
  : list (snode Sp) -> context Sp -> list A -> list (derror Sp) -> context Sp -> Prop :=
| OP_nil c : one_pass d [] c [] [] c
| OP_ok n ns c c1 a out es c2 : d n c = (c1, DOk a) -> one_pass d ns c1 out es c2 ->
    one_pass d (n :: ns) c (a :: out) es c2
| OP_err n ns c c1 e out es c2 : d n c = (c1, DErr e) ->
    one_pass d ns (Context (c_errors c1 ++ [e]) (c_ext c1)) out es c2 ->
    one_pass d (n :: ns) c out (e :: es) c2.

(** All of the first list is in the second, in the same order. *)
Inductive subsequence {X} : list X -> list X -> Prop :=
| Sub_nil l : subsequence [] l
| Sub_take x a b : subsequence a b -> subsequence (x :: a) (x :: b)
| Sub_skip x a b : subsequence a b -> subsequence a (x :: b).

(** ** Flag nodes *)

(** One error per argument, property and child. *)
Definition flag_errors {Sp} (n : node Sp) : list (derror Sp) :=
  map (fun v => DUnexpected (s_span (v_literal v)) (str "argument") (str "unexpected argument"))
    (n_arguments n)
  ++ map (fun kv => DUnexpected (s_span (fst kv)) (str "property")
       (str "unexpected property `" ++ escape_default (s_value (fst kv)) ++ str "`"))
    (n_properties n)
  ++ map (fun ch => DUnexpected (s_span ch) (str "node")
       (str "unexpected node `" ++ escape_default (s_value (n_node_name (s_value ch))) ++ str "`"))
    (node_children n).

(** ** Bytes *)

(** RFC 3629, table of section 3. *)
Definition tail_byte (b : N) : Prop := 0x80 <= b <= 0xBF.

Inductive utf8_spec : char -> list N -> Prop :=
| U1 c : c <= 0x7F -> utf8_spec c [c]
| U2 c a b : 0x80 <= c <= 0x7FF -> 0xC0 <= a <= 0xDF -> tail_byte b ->
    c = (a - 0xC0) * 2 ^ 6 + (b - 0x80) -> utf8_spec c [a; b]
| U3 c a b d : 0x800 <= c <= 0xFFFF -> 0xE0 <= a <= 0xEF -> tail_byte b -> tail_byte d ->
    c = (a - 0xE0) * 2 ^ 12 + (b - 0x80) * 2 ^ 6 + (d - 0x80) -> utf8_spec c [a; b; d]
| U4 c a b d e : 0x10000 <= c <= 0x10FFFF -> 0xF0 <= a <= 0xF7 -> tail_byte b -> tail_byte d ->
    tail_byte e ->
    c = (a - 0xF0) * 2 ^ 18 + (b - 0x80) * 2 ^ 12 + (d - 0x80) * 2 ^ 6 + (e - 0x80) ->
    utf8_spec c [a; b; d; e].

Inductive utf8_text : text -> list N -> Prop :=
| UT_nil : utf8_text [] []
| UT_cons c t b bs : utf8_spec c b -> utf8_text t bs -> utf8_text (c :: t) (b ++ bs).

(** RFC 4648, section 4. *)
Definition b64_alphabet : text :=
  str "ABCDEFGHIJKLMNOPQRSTUVWXYZabcdefghijklmnopqrstuvwxyz0123456789+/".

Definition b64_char (n : N) : char := nth (N.to_nat n) b64_alphabet 0.

Fixpoint b64_encode (b : list N) : text :=
  match b with
  | [] => []
  | [x] => let n := x * 2 ^ 16 in
      [b64_char (n / 2 ^ 18); b64_char (n / 2 ^ 12 mod 64); 0x3D; 0x3D]
  | [x; y] => let n := x * 2 ^ 16 + y * 2 ^ 8 in
      [b64_char (n / 2 ^ 18); b64_char (n / 2 ^ 12 mod 64); b64_char (n / 2 ^ 6 mod 64); 0x3D]
  | x :: y :: z :: rest => let n := x * 2 ^ 16 + y * 2 ^ 8 + z in
      b64_char (n / 2 ^ 18) :: b64_char (n / 2 ^ 12 mod 64) :: b64_char (n / 2 ^ 6 mod 64)
        :: b64_char (n mod 64) :: b64_encode rest
  end.

Definition byte (n : N) : Prop := n < 256.

(** ** Trees *)

(** The properties of a node are in order: that is what a [BTreeMap] is. *)
Inductive well_formed {Sp} : node Sp -> Prop :=
| WF ty nm args props ch : increasing props ->
    (forall c, ch = Some c -> Forall (fun sn => well_formed (s_value sn)) (s_value c)) ->
    well_formed (Node ty nm args props ch).

(** ** Scalars *)

(** The kind of literal that a type takes. *)
Inductive wants := W_int | W_decimal | W_string | W_bool.
Definition wanted_kind (w : wants) : kind :=
  match w with W_int => KInt | W_decimal => KDecimal | W_string => KString | W_bool => KBool end.

Definition float_rust_name (t : float_type) : text :=
  str match t with TF32 => "f32" | TF64 => "f64" end.

(** Implementations that keep the provided [decode]. *)
Definition plain {Sp A} (i : scalar_impl Sp A) : Prop :=
  forall v c, sc_decode i v c = sc_raw_decode i (v_literal v) (sc_type_check i (v_type_name v) c).

(** Two decoders give the same up to a function on the values. *)
Definition same_but {Sp A B} (f : A -> B) (x : context Sp * dout Sp A)
    (y : context Sp * dout Sp B) : Prop :=
  fst x = fst y
  /\ match snd x, snd y with
     | DOk a, DOk b => b = f a
     | DErr e, DErr e' => e = e'
     | DPanic, DPanic => True
     | _, _ => False
     end.
