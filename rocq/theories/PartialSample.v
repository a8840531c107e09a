(** Concrete cases for C56 and C57. *)

From Coq Require Import NArith ZArith List Bool String.
From Verif Require Import Chars Ast Errors Chumsky Spans Decode DeriveDef Derive DeriveConformance.
Import ListNotations.
Local Open Scope string_scope.
Local Open Scope list_scope.

(** [Option], and the same with its full path. *)
Definition std_fields : list (src_field span leaf) :=
  [F_ "a" Opt ty_opt_string [property];
   F_ "b" (TPath false false [(str "std", false); (str "option", false); (str "Option", true)])
     ty_opt_string [property]].

(** A value with or without a type name. *)
Definition val (ty : option typename) (l : literal) : value span :=
  Value (option_map (Spanned (Span 0 1)) ty) (Spanned (Span 1 2) l).
