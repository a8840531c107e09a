(** What decoding into an enum with [DecodeScalar] should do, and the messages that list
    the names of variants. *)

From Coq Require Import NArith List Bool String.
From Verif Require Import Chars Ast Errors Kdl Decode DecodeSpec DeriveDef.
Import ListNotations.

(** A number in decimal, without leading zeros. *)
Definition numeral (t : text) (n : N) : Prop :=
  DecodeSpec.digits_value 10 t n /\ t <> [] /\ (hd_error t = Some 0x30%N -> t = [0x30%N]).

(** A name in backquotes. *)
Definition in_quotes (name : text) : text := str "`" ++ escape_default name ++ str "`".

(** Names with commas between them. *)
Inductive listed : list text -> text -> Prop :=
| Li_none : listed [] []
| Li_one n : listed [n] (in_quotes n)
| Li_more n names t : names <> [] -> listed names t ->
    listed (n :: names) (in_quotes n ++ str ", " ++ t).

(** Up to three names are all listed; of more, two are, and the others are counted. *)
Inductive expectation : list text -> text -> Prop :=
| Ex_few names t : (List.length names <= 3)%nat -> listed names t ->
    expectation names (str "expected one of " ++ t)
| Ex_many a b names t : (2 <= List.length names)%nat ->
    numeral t (N.of_nat (List.length names)) ->
    expectation (a :: b :: names)
      (str "expected " ++ in_quotes a ++ str ", " ++ in_quotes b ++ str ", or one of " ++ t
         ++ str " others").

Section Enum.
Context {Sp L : Type} (kebab : text -> text).

(** The enums that have only names. *)
Definition plain_enum (i : src_item Sp L) : Prop :=
  match i with
  | SrcEnum _ _ vs => Forall (fun v => sv_fields v = FUnit) vs
  | SrcStruct _ _ _ => False
  end.

(** The first variant with a name. *)
Definition first_named (vs : list (src_variant Sp L)) (name : text) (v : src_variant Sp L) : Prop :=
  exists before after, vs = before ++ v :: after /\ kebab (sv_ident v) = name
    /\ Forall (fun w => kebab (sv_ident w) <> name) before.

(** The complaint about a type name. *)
Definition type_unwanted (ident : text) (ty : option (spanned typename Sp)) : list (derror Sp) :=
  match ty with
  | Some (Spanned s n) => [DTypeName s (Some n) (ExpectedType [] true) ident]
  | None => []
  end.

(** Items that differ in attributes only. *)
Definition same_but_attributes (i j : src_item Sp L) : Prop :=
  match i, j with
  | SrcStruct a _ fs, SrcStruct b _ gs => a = b /\ fs = gs
  | SrcEnum a _ vs, SrcEnum b _ ws =>
      a = b /\ map (fun v => (sv_ident v, sv_fields v)) vs = map (fun v => (sv_ident v, sv_fields v)) ws
  | _, _ => False
  end.

End Enum.
