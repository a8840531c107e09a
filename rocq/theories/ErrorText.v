(** Model of how decode errors are shown: the [Display] and [Diagnostic] impls of
    src/errors.rs. *)

From Coq Require Import NArith List Bool String.
From Verif Require Import Chars Ast Errors Decode.
Import ListNotations.
Local Open Scope list_scope.

(** [Display for ParseIntError] of the standard library. *)
Definition int_error_display (e : int_error) : text :=
  match e with
  | IEmpty => str "cannot parse integer from empty string"
  | IInvalidDigit => str "invalid digit found in string"
  | IPosOverflow => str "number too large to fit in target type"
  | INegOverflow => str "number too small to fit in target type"
  end.

(** The loop of src/errors.rs:511-513. *)
Fixpoint type_commas (l : list typename) : text :=
  match l with
  | [] => []
  | t :: l' => str ", " ++ typename_as_str t ++ type_commas l'
  end.

(** src/errors.rs:496-521 [Display for ExpectedType]. *)
Definition expected_type_display (e : expected_type) : text :=
  match et_types e with
  | [] => str "no type"
  | first :: rest =>
      typename_as_str first ++
      if et_no_type e then type_commas rest ++ str " or no type"
      else
        match rev rest with
        | [] => []
        | last :: mid_rev =>
            type_commas (rev mid_rev) ++ str " or " ++ typename_as_str last
        end
  end.

Section ErrorText.
(** [Display] of the errors of external code, which are opaque. *)
Context (other : N -> text).

(** [Display] of a [Box<dyn Error>]. *)
Definition source_display (s : source) : text :=
  match s with
  | SInt e => int_error_display e
  | SMsg t => t
  | SOther code => other code
  end.

(** The [#[error(...)]] attributes of [DecodeError], src/errors.rs:44-146; that
    of [ScalarKind] uses src/errors.rs:536-540 and src/decode.rs:197-201. *)
Definition derror_message {Sp} (e : derror Sp) : text :=
  match e with
  | DTypeName _ found expected rust_type =>
      expected_type_display expected ++ str " for " ++ rust_type ++ str ", found "
      ++ match found with Some t => typename_as_str t | None => str "no type name" end
  | DScalarKind _ expected found =>
      str "expected " ++ kind_as_str expected ++ str " scalar, found " ++ kind_as_str found
  | DMissing _ m | DMissingNode m | DUnexpected _ _ m | DUnsupported _ m => m
  | DConversion _ s | DCustom s => source_display s
  end.

End ErrorText.

(** The [#[label(...)]] attributes of [DecodeError], src/errors.rs:49-139, with
    their spans. *)
Definition derror_labels {Sp} (e : derror Sp) : list (text * Sp) :=
  match e with
  | DTypeName sp _ _ _ => [(str "unexpected type name", sp)]
  | DScalarKind sp _ found => [(str "unexpected " ++ kind_as_str found, sp)]
  | DMissing sp _ => [(str "node starts here", sp)]
  | DUnexpected sp what _ => [(str "unexpected " ++ what, sp)]
  | DConversion sp _ => [(str "invalid value", sp)]
  | DUnsupported sp _ => [(str "unsupported value", sp)]
  | DMissingNode _ | DCustom _ => []
  end.

(** src/errors.rs:437-459 [DecodeError::map_span]. *)
Definition map_derror_span {Sp U} (g : Sp -> U) (e : derror Sp) : derror U :=
  match e with
  | DTypeName sp found expected rust_type => DTypeName (g sp) found expected rust_type
  | DScalarKind sp expected found => DScalarKind (g sp) expected found
  | DMissing sp m => DMissing (g sp) m
  | DMissingNode m => DMissingNode m
  | DUnexpected sp what m => DUnexpected (g sp) what m
  | DConversion sp s => DConversion (g sp) s
  | DUnsupported sp m => DUnsupported (g sp) m
  | DCustom s => DCustom s
  end.

(** The [#[help(...)]] attribute of [ParseError], src/errors.rs:195. *)
Definition perror_help {Sp} (e : perror Sp) : option text :=
  match e with
  | EMessageHelp _ _ _ h => Some (str h)
  | _ => None
  end.

(** [Display for Error], src/errors.rs:25-26. *)
Definition error_display : text := str "error parsing KDL".
