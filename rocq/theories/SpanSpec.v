(** What it means that the byte spans of a document are exact. *)

From Coq Require Import NArith PeanoNat List Bool String.
From Verif Require Import Chars Ast Chumsky Spans Kdl.
Import ListNotations.

(** The span covers exactly the characters [s], and [s] is not empty.  As [t] is
    cut between characters, both ends are character boundaries, and the end is at
    most the length of the text. *)
Definition source (t : text) (sp : span) (s : text) : Prop :=
  exists p q, t = p ++ s ++ q /\ s <> []
    /\ sp = Span (byte_len p) (byte_len (p ++ s)).

Definition exact_type (t : text) (ty : spanned typename span) : Prop :=
  exists s, source t (s_span ty) s /\ type_text s (s_value ty).

(** The literal, and the type name directly before it. *)
Definition exact_value (t : text) (v : value span) : Prop :=
  (exists s, source t (s_span (v_literal v)) s /\ literal_text s (s_value (v_literal v)))
  /\ forall ty, v_type_name v = Some ty ->
       exact_type t ty /\ sp_end (s_span ty) = sp_start (s_span (v_literal v)).

(** From the type name, if any, to the end of the literal. *)
Definition extent (v : value span) : span :=
  Span (match v_type_name v with
        | Some ty => sp_start (s_span ty)
        | None => sp_start (s_span (v_literal v))
        end) (sp_end (s_span (v_literal v))).

(** The spans are disjoint, in order, and between [lo] and [hi]. *)
Inductive in_order : nat -> nat -> list span -> Prop :=
| IO_nil lo hi : lo <= hi -> in_order lo hi []
| IO_cons lo hi sp l : lo <= sp_start sp -> sp_start sp < sp_end sp ->
    in_order (sp_end sp) hi l -> in_order lo hi (sp :: l).

Inductive exact_node (t : text) : span -> node span -> Prop :=
| Exact_node sp s ty nm args props ch last :
    source t sp s ->
    (forall x, ty = Some x -> exact_type t x /\ sp_start (s_span x) = sp_start sp
                              /\ sp_end (s_span x) = sp_start (s_span nm)) ->
    (ty = None -> sp_start (s_span nm) = sp_start sp) ->
    (exists s rest, source t (s_span nm) s /\ ident_at s rest (s_value nm)) ->
    Forall (exact_value t) args ->
    Forall (fun kv => exists s, source t (s_span (fst kv)) s
                                /\ key_text s (s_value (fst kv))) props ->
    Forall (fun kv => exact_value t (snd kv)) props ->
    (** Arguments, names and values of properties lie in order between the name
        and the children block. *)
    in_order (sp_end (s_span nm)) last (map extent args) ->
    Forall (fun kv => in_order (sp_end (s_span nm)) last [s_span (fst kv)]
                      /\ in_order (sp_end (s_span nm)) last [extent (snd kv)]) props ->
    (forall c, ch = Some c -> exists s, source t (s_span c) (str "{" ++ s ++ str "}")) ->
    (forall c, ch = Some c -> last <= sp_start (s_span c)
                              /\ sp_end (s_span c) <= sp_end sp) ->
    last <= sp_end sp ->
    (forall c, ch = Some c ->
       exact_nodes t (S (sp_start (s_span c))) (sp_end (s_span c) - 1) (s_value c)) ->
    exact_node t sp (Node ty nm args props ch)

(** Nodes in order, between two offsets. *)
with exact_nodes (t : text) : nat -> nat -> list (snode span) -> Prop :=
| Exact_nil lo hi : lo <= hi -> exact_nodes t lo hi []
| Exact_cons lo hi n l : lo <= sp_start (s_span n) ->
    exact_node t (s_span n) (s_value n) ->
    exact_nodes t (sp_end (s_span n)) hi l -> exact_nodes t lo hi (n :: l).
