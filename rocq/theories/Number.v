(** Number literals spelled out, and the literals of a document. *)

From Coq Require Import NArith List Bool String.
From Verif Require Import Chars Ast Chumsky Kdl.
Import ListNotations.
Local Open Scope N_scope.

Definition without_underscores (t : text) : text := filter (fun c => negb (c =? 0x5F)) t.

(** A digit, then digits and underscores. *)
Definition digits_of (r : N) (t : text) : Prop :=
  exists d ds, t = d :: ds /\ digit_char r d /\ Forall (fun c => c = 0x5F \/ digit_char r c) ds.

(** A decimal floating point number: digits, then a fraction or an exponent or
    both. *)
Definition plain_digits (t : text) : Prop := t <> [] /\ Forall (digit_char 10) t.

Inductive float_text : text -> Prop :=
| Float sg m f e : opt_sign_text sg -> plain_digits m ->
    f = [] \/ (exists ds, f = 0x2E :: ds /\ plain_digits ds) ->
    e = [] \/ (exists x s ds, e = x :: s ++ ds /\ (x = 0x65 \/ x = 0x45) /\ opt_sign_text s
                 /\ plain_digits ds) ->
    float_text (sg ++ m ++ f ++ e).

(** The number ends in the letter of the exponent or its sign. *)
Definition dangling_exponent (t : text) : Prop :=
  exists m x s, t = m ++ x :: s /\ (x = 0x65 \/ x = 0x45) /\ opt_sign_text s.

(** The literals of a list of nodes: in arguments, properties, and below. *)
Inductive occurs {Sp} (l : literal) : list (snode Sp) -> Prop :=
| Occ_arg n ns v : In n ns -> In v (n_arguments (s_value n)) -> s_value (v_literal v) = l ->
    occurs l ns
| Occ_prop n ns k v : In n ns -> In (k, v) (n_properties (s_value n)) ->
    s_value (v_literal v) = l -> occurs l ns
| Occ_child n ns c : In n ns -> n_children (s_value n) = Some c -> occurs l (s_value c) ->
    occurs l ns.
