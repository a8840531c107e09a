(** Model of the scalar decoders: src/convert.rs, the scalar implementations of
    src/containers.rs and src/convert_ast.rs, and the decoder that
    derive/src/scalar.rs generates. *)

From Coq Require Import NArith ZArith List Bool String.
From Verif Require Import Chars Ast Errors Chumsky Decode.
Import ListNotations.
Local Open Scope N_scope.

(** The integer types of src/convert.rs:68-77.  [isize] and [usize] have 64 bits,
    as on a 64-bit platform. *)
Inductive int_type := TI8 | TU8 | TI16 | TU16 | TI32 | TU32 | TI64 | TU64 | TIsize | TUsize.

Definition int_signed (t : int_type) : bool :=
  match t with
  | TI8 | TI16 | TI32 | TI64 | TIsize => true
  | _ => false
  end.

Definition int_bits (t : int_type) : Z :=
  match t with
  | TI8 | TU8 => 8
  | TI16 | TU16 => 16
  | TI32 | TU32 => 32
  | _ => 64
  end.

(** [$typ::MIN] and [$typ::MAX]. *)
Definition int_min (t : int_type) : Z :=
  if int_signed t then (- 2 ^ (int_bits t - 1))%Z else 0%Z.
Definition int_max (t : int_type) : Z :=
  if int_signed t then (2 ^ (int_bits t - 1) - 1)%Z else (2 ^ int_bits t - 1)%Z.

(** [checked_mul], [checked_add] and [checked_sub] return [None] outside the
    range. *)
Definition checked (t : int_type) (z : Z) : option Z :=
  if ((int_min t <=? z) && (z <=? int_max t))%Z then Some z else None.

(** core [from_str_radix]: the loop over the digits, adding or subtracting.  In
    each step the digit is looked at after the multiplication was tried, so a bad
    digit wins over an overflow.  The version without checks that the library uses
    for short inputs gives the same, because it cannot overflow. *)
Fixpoint radix_loop (t : int_type) (positive : bool) (radix : N) (ds : text) (acc : Z)
  : Z + int_error :=
  match ds with
  | [] => inl acc
  | d :: ds' =>
      let overflow := if positive then IPosOverflow else INegOverflow in
      let mul := checked t (acc * Z.of_N radix)%Z in
      match to_digit radix d with
      | None => inr IInvalidDigit
      | Some x =>
          match mul with
          | None => inr overflow
          | Some m =>
              match checked t (if positive then m + Z.of_N x else m - Z.of_N x)%Z with
              | None => inr overflow
              | Some r => radix_loop t positive radix ds' r
              end
          end
      end
  end.

(** core [from_str_radix]: empty input and a lone sign are errors; a minus sign
    is taken only for signed types. *)
Definition from_str_radix (t : int_type) (radix : N) (s : text) : Z + int_error :=
  match s with
  | [] => inr IEmpty
  | c :: rest =>
      if ((c =? 0x2B) || (c =? 0x2D)) && match rest with [] => true | _ => false end
      then inr IInvalidDigit
      else if c =? 0x2B then radix_loop t true radix rest 0%Z
      else if (c =? 0x2D) && int_signed t then radix_loop t false radix rest 0%Z
      else radix_loop t true radix s 0%Z
  end.

(** src/convert.rs:15-26 [TryFrom<&Integer>]; [from_str] is [from_str_radix]
    with radix 10. *)
Definition int_try_from (t : int_type) (r : radix) (s : text) : Z + int_error :=
  match r with
  | Bin => from_str_radix t 2 s
  | Oct => from_str_radix t 8 s
  | Dec => from_str_radix t 10 s
  | Hex => from_str_radix t 16 s
  end.

(** The [$marker] of src/convert.rs:68-77. *)
Definition int_marker (t : int_type) : builtin :=
  match t with
  | TI8 => I8 | TU8 => U8 | TI16 => I16 | TU16 => U16 | TI32 => I32 | TU32 => U32
  | TI64 => I64 | TU64 => U64 | TIsize => Isize | TUsize => Usize
  end.

(** [stringify!($typ)]. *)
Definition int_name (t : int_type) : text := builtin_as_str (int_marker t).

Definition builtin_eqb (a b : builtin) : bool :=
  match a, b with
  | U8, U8 | I8, I8 | U16, U16 | I16, I16 | U32, U32 | I32, I32 | U64, U64 | I64, I64
  | Usize, Usize | Isize, Isize | F32, F32 | F64, F64 | Base64, Base64 => true
  | _, _ => false
  end.

(** src/convert.rs:49-64 and 110-125 [type_check] of the number types. *)
Definition number_type_check {Sp} (marker : builtin) (name : text)
    (ty : option (spanned typename Sp)) (c : context Sp) : context Sp :=
  match ty with
  | Some typ =>
      if match typename_as_builtin (s_value typ) with
         | Some b => builtin_eqb b marker
         | None => false
         end
      then c
      else emit_error (DTypeName (s_span typ) (Some (s_value typ)) (et_optional (Builtin marker))
             name) c
  | None => c
  end.

(** src/convert.rs:29-48 [raw_decode] of the integer types. *)
Definition int_raw_decode {Sp} (t : int_type) (val : spanned literal Sp) : dec Sp Z :=
  fun c =>
  match s_value val with
  | LInt r s =>
      match int_try_from t r s with
      | inl z => (c, DOk z)
      | inr e => (emit_error (conversion val (SInt e)) c, DOk 0%Z)
      end
  | _ => (emit_error (scalar_kind KString val) c, DOk 0%Z)
  end.

(** src/convert.rs:13-77 [impl_integer]. *)
Definition int_impl {Sp} (t : int_type) : scalar_impl Sp Z :=
  scalar_default (number_type_check (int_marker t) (int_name t)) (int_raw_decode t).

(** src/convert.rs:129-130. *)
Inductive float_type := TF32 | TF64.

Definition float_marker (t : float_type) : builtin :=
  match t with TF32 => F32 | TF64 => F64 end.

(** src/convert.rs:79-130 [impl_float].  [float_from_str] is [FromStr] of the
    float type, [zero] the value [0.0]. *)
Definition float_raw_decode {Sp F} (float_from_str : text -> option F) (zero : F)
    (val : spanned literal Sp) : dec Sp F :=
  fun c =>
  match s_value val with
  | LDecimal s =>
      match float_from_str s with
      | Some x => (c, DOk x)
      | None => (emit_error (conversion val (SOther 32)) c, DOk zero)
      end
  | _ => (emit_error (scalar_kind KString val) c, DOk zero)
  end.

Definition float_impl {Sp F} (t : float_type) (float_from_str : text -> option F) (zero : F)
  : scalar_impl Sp F :=
  scalar_default (number_type_check (float_marker t) (builtin_as_str (float_marker t)))
    (float_raw_decode float_from_str zero).

(** src/convert.rs:144-156, 171-183, 197-209, 223-235, 249-261 and
    derive/src/scalar.rs:125-137 [type_check]: any type name is an error. *)
Definition no_type_check {Sp} (name : text) (ty : option (spanned typename Sp))
    (c : context Sp) : context Sp :=
  match ty with
  | Some typ => emit_error (DTypeName (s_span typ) (Some (s_value typ)) et_no_types name) c
  | None => c
  end.

(** src/convert.rs:132-143, 160-170, 186-196, 212-222 [raw_decode]: the types
    made from a string, with the text standing for the value. *)
Definition string_raw_decode {Sp} (val : spanned literal Sp) : dec Sp text :=
  fun c =>
  match s_value val with
  | LString s => (c, DOk s)
  | _ => (emit_error (scalar_kind KString val) c, DOk [])
  end.

(** src/convert.rs:132-157, 159-183, 185-209 and 211-235. *)
Inductive string_type := TString | TPathBuf | TArcPath | TArcStr.

Definition string_type_name (t : string_type) : text :=
  match t with
  | TString => str "String"
  | TPathBuf => str "PathBuf"
  | TArcPath => str "Arc<Path>"
  | TArcStr => str "Arc<str>"
  end.

Definition string_impl {Sp} (t : string_type) : scalar_impl Sp text :=
  scalar_default (no_type_check (string_type_name t)) string_raw_decode.

(** src/convert.rs:238-248 [raw_decode] of [bool]. *)
Definition bool_raw_decode {Sp} (val : spanned literal Sp) : dec Sp bool :=
  fun c =>
  match s_value val with
  | LBool b => (c, DOk b)
  | _ => (emit_error (scalar_kind KBool val) c, DOk false)
  end.

(** src/convert.rs:237-262. *)
Definition bool_impl {Sp} : scalar_impl Sp bool :=
  scalar_default (no_type_check (str "bool")) bool_raw_decode.

(** src/containers.rs:43-53, 88-99 and 134-145: [Box], [Arc] and [Rc].  They use
    the provided [decode].  [wrap] is [Box::new] and so on. *)
Definition wrapped_impl {Sp A B} (wrap : A -> B) (i : scalar_impl Sp A) : scalar_impl Sp B :=
  scalar_default (sc_type_check i) (fun v => d_map wrap (sc_raw_decode i v)).

(** src/containers.rs:162-175 [Option<T>]. *)
Definition option_impl {Sp A} (i : scalar_impl Sp A) : scalar_impl Sp (option A) :=
  scalar_default (sc_type_check i)
    (fun v => match s_value v with
              | LNull => d_ok None
              | _ => d_map Some (sc_raw_decode i v)
              end).

(** src/containers.rs:177-195 [Spanned<T, Q>]. *)
Definition spanned_impl {Sp A Q} (ds : span_impl Sp Q) (i : scalar_impl Sp A)
  : scalar_impl Sp (spanned A Q) :=
  scalar_default (sc_type_check i)
    (fun v => d_bind (sc_raw_decode i v)
                (fun a c => let '(c', q) := ds (s_span v) c in (c', DOk (Spanned q a)))).

(** src/span.rs:299-308 [Spanned::clone_as]. *)
Definition clone_as {T Sp Q} (ds : span_impl Sp Q) (s : spanned T Sp) (c : context Sp)
  : context Sp * spanned T Q :=
  let '(c', q) := ds (s_span s) c in (c', Spanned q (s_value s)).

(** src/convert_ast.rs:54-75 [Value<T>]. *)
Definition value_decode {Sp Q} (ds : span_impl Sp Q) (v : value Sp) : dec Sp (value Q) :=
  fun c =>
  let '(c1, ty) :=
    match v_type_name v with
    | Some n => let '(c1, n') := clone_as ds n c in (c1, Some n')
    | None => (c, None)
    end in
  let '(c2, lit) := clone_as ds (v_literal v) c1 in
  (c2, DOk (Value ty lit)).

Definition value_impl {Sp Q} (ds : span_impl Sp Q) : scalar_impl Sp (value Q) :=
  ScalarImpl (fun _ c => c) (fun _ => d_panic) (value_decode ds).

(** src/convert_ast.rs:77-89 [Literal]. *)
Definition literal_impl {Sp} : scalar_impl Sp literal :=
  scalar_default (fun _ c => c) (fun v => d_ok (s_value v)).

(** The message of derive/src/scalar.rs:82-93 and derive/src/variants.rs:138-149:
    the names of the variants, or two of them and a count. *)
Definition quoted (t : text) : text := 0x60 :: escape_default t ++ [0x60].

Fixpoint join_comma (l : list text) : text :=
  match l with
  | [] => []
  | [t] => t
  | t :: l' => t ++ str ", " ++ join_comma l'
  end.

(** The decimal digits of a number ([Display] of [usize]). *)
Fixpoint decimal_digits (fuel : nat) (n : N) (acc : text) : text :=
  match fuel with
  | O => acc
  | S f =>
      let acc' := 0x30 + n mod 10 :: acc in
      if n <? 10 then acc' else decimal_digits f (n / 10) acc'
  end.

Definition expected_names (names : list text) : text :=
  match names with
  | a :: b :: _ :: _ :: _ =>
      str "expected " ++ quoted a ++ str ", " ++ quoted b ++ str ", or one of "
        ++ decimal_digits 20 (N.of_nat (List.length names - 2)) [] ++ str " others"
  | _ => str "expected one of " ++ join_comma (map quoted names)
  end.

(** A Rust [match] on a string with one branch per name: the first equal name. *)
Fixpoint match_name {A} (s : text) (branches : list (text * A)) : option A :=
  match branches with
  | [] => None
  | (n, a) :: bs => if text_eqb s n then Some a else match_name s bs
  end.

(** derive/src/scalar.rs:80-141 [emit_enum]: the generated implementation, for
    variants with their names. *)
Definition scalar_enum_raw {Sp A} (variants : list (text * A)) (val : spanned literal Sp)
  : dec Sp A :=
  match s_value val with
  | LString s =>
      match match_name s variants with
      | Some a => d_ok a
      | None => d_err (conversion val (SMsg (expected_names (map fst variants))))
      end
  | _ => d_err (scalar_kind KString val)
  end.

Definition scalar_enum_impl {Sp A} (name : text) (variants : list (text * A))
  : scalar_impl Sp A :=
  scalar_default (no_type_check name) (scalar_enum_raw variants).

(** src/ast.rs:297-319 [Encode] and [Decode] of [TypeName] with the feature
    [minicbor]: the text of the name, and [FromStr].  CBOR strings are modelled by
    the text they hold. *)
Definition typename_to_cbor (t : typename) : text := typename_as_str t.
Definition typename_from_cbor (s : text) : typename := typename_from_string s.
