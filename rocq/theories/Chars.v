(** Characters and character classes.

    A Rust [char] is modelled by its code point, an [N].  A Rust [&str] is
    modelled by the list of its characters.  UTF-8 enters only through
    [utf8_len]. *)

From Coq Require Import NArith List Bool String Ascii.
Import ListNotations.
Local Open Scope N_scope.

Definition char := N.
Definition text := list char.

(** Unicode scalar values: what a Rust [char] can hold. *)
Definition is_scalar (c : char) : bool :=
  (c <? 0xD800) || ((0xE000 <=? c) && (c <=? 0x10FFFF)).

(** [char::len_utf8], used in src/span.rs:120 and src/span.rs:175. *)
Definition utf8_len (c : char) : nat :=
  if c <? 0x80 then 1%nat
  else if c <? 0x800 then 2%nat
  else if c <? 0x10000 then 3%nat
  else 4%nat.

(** Length in bytes of a text ([str::len]). *)
Fixpoint byte_len (t : text) : nat :=
  match t with
  | [] => 0%nat
  | c :: t' => (utf8_len c + byte_len t')%nat
  end.

(** ASCII literals used to write model constants and examples. *)
Fixpoint str (s : string) : text :=
  match s with
  | EmptyString => []
  | String a s' => N_of_ascii a :: str s'
  end.

Definition text_eqb (a b : text) : bool :=
  if list_eq_dec N.eq_dec a b then true else false.

(** src/grammar.rs:63-71 [ws_char]: the set of the [filter]. *)
Definition is_ws_char (c : char) : bool :=
  (c =? 0x09) || (c =? 0x20) || (c =? 0xA0) || (c =? 0x1680)
  || ((0x2000 <=? c) && (c <=? 0x200A))
  || (c =? 0x202F) || (c =? 0x205F) || (c =? 0x3000) || (c =? 0xFEFF).

(** The punctuation excluded by all three identifier classes,
    src/grammar.rs:76, 91, 106. *)
Definition is_punct (c : char) : bool :=
  (c =? 0x5C) (* \ *) || (c =? 0x2F) (* / *) || (c =? 0x28) (* ( *)
  || (c =? 0x29) (* ) *) || (c =? 0x7B) (* { *) || (c =? 0x7D) (* } *)
  || (c =? 0x3C) (* < *) || (c =? 0x3E) (* > *) || (c =? 0x3B) (* ; *)
  || (c =? 0x5B) (* [ *) || (c =? 0x5D) (* ] *) || (c =? 0x3D) (* = *)
  || (c =? 0x2C) (* , *) || (c =? 0x22) (* double quote *).

(** The non-ASCII whitespace and newlines excluded by all three classes,
    src/grammar.rs:77-82, 92-97, 107-112.  Note that U+FEFF is not in it. *)
Definition is_uni_space (c : char) : bool :=
  (c =? 0xA0) || (c =? 0x1680) || ((0x2000 <=? c) && (c <=? 0x200A))
  || (c =? 0x202F) || (c =? 0x205F) || (c =? 0x3000)
  || (c =? 0x85) || (c =? 0x2028) || (c =? 0x2029).

Definition is_dec_digit (c : char) : bool := (0x30 <=? c) && (c <=? 0x39).

(** src/grammar.rs:73-85 [id_char].  The control range ends at U+0021, so the
    exclamation mark is excluded. *)
Definition is_id_char (c : char) : bool :=
  negb ((c <=? 0x21) || is_punct c || is_uni_space c).

(** src/grammar.rs:87-100 [id_sans_dig]. *)
Definition is_id_sans_dig (c : char) : bool :=
  negb (is_dec_digit c || (c <=? 0x20) || is_punct c || is_uni_space c).

(** src/grammar.rs:102-115 [id_sans_sign_dig]. *)
Definition is_id_sans_sign_dig (c : char) : bool :=
  negb ((c =? 0x2D) || (c =? 0x2B)
        || is_dec_digit c || (c <=? 0x20) || is_punct c || is_uni_space c).

(** [char::to_digit], for the radixes 2, 8, 10 and 16 used in
    src/grammar.rs:212, 326, 330 and by [from_str_radix]. *)
Definition to_digit (radix : N) (c : char) : option N :=
  let d :=
    if (0x30 <=? c) && (c <=? 0x39) then Some (c - 0x30)
    else if (0x61 <=? c) && (c <=? 0x7A) then Some (c - 0x61 + 10)
    else if (0x41 <=? c) && (c <=? 0x5A) then Some (c - 0x41 + 10)
    else None in
  match d with
  | Some v => if v <? radix then Some v else None
  | None => None
  end.

(** [char::is_digit]. *)
Definition is_digit (radix : N) (c : char) : bool :=
  match to_digit radix c with Some _ => true | None => false end.

(** Order on texts: Rust compares [str] bytewise on UTF-8, which is the same as
    comparing code points lexicographically. *)
Fixpoint text_compare (a b : text) : comparison :=
  match a, b with
  | [], [] => Eq
  | [], _ :: _ => Lt
  | _ :: _, [] => Gt
  | x :: a', y :: b' =>
      match N.compare x y with
      | Eq => text_compare a' b'
      | c => c
      end
  end.
