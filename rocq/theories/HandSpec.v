(** What it means that a part of a node was handed to the decoder of a field. *)

From Coq Require Import NArith List Bool String.
From Verif Require Import Chars Ast Errors Kdl Decode DecodeSpec DeriveDef Derive DeriveSpec
  FieldSpec StructSpec.
Import ListNotations.

(** A decoder gives a value and no error. *)
Definition fine {Sp A} (m : dec Sp A) (x : A) : Prop :=
  exists c c', m c = (c', DOk x) /\ c_errors c' = c_errors c.

Section Hand.
Context {Sp L : Type} (kebab : text -> text) (fs : list (src_field Sp L)) (v : dval L).

(** Argument [i] was decoded for field [i], or else for the [arguments] field, which
    holds the result at its place. *)
Definition arg_handed (i : nat) (a : value Sp) : Prop :=
  (exists f x, nth_error (the_arguments fs) i = Some f
     /\ fine (decode_value (ar_decode f) (ar_option f) (f_impl (ar_field f)) a) x
     /\ holds v (ar_field f) x)
  \/ (exists f m xs j x, the_var_args fs = Some (f, m) /\ i = List.length (the_arguments fs) + j
     /\ fine (decode_value m false (f_impl f) a) x
     /\ holds v f (VList xs) /\ nth_error xs j = Some x).

(** A property was decoded for the field of its name, or else for [properties]. *)
Definition prop_handed (k : spanned text Sp) (a : value Sp) : Prop :=
  (exists p x, In p (the_properties kebab fs) /\ pr_name p = s_value k
     /\ fine (decode_value (pr_decode p) (pr_option p) (f_impl (pr_field p)) a) x
     /\ holds v (pr_field p) x)
  \/ (exists f m kxs kk x, the_var_props fs = Some (f, m)
     /\ ~ In (s_value k) (map pr_name (the_properties kebab fs))
     /\ ti_key_from_str (f_impl f) (s_value k) = inl kk
     /\ fine (decode_value m false (f_impl f) a) x
     /\ holds v f (VPairs kxs) /\ In (kk, x) kxs).

(** What a child field holds for the value of its node. *)
Definition stored (d : child Sp L) (x : dval L) : dval L :=
  if ch_option d && match ch_default d with None => true | _ => false end then VSome x else x.

(** A child was decoded for the field of its name, or else for [children]; a child of a
    single field or a flag is the only one of its name, and a flag has no content. *)
Definition child_handed (ns : list (snode Sp)) (n : snode Sp) : Prop :=
  (exists d x, In d (the_children kebab fs) /\ ch_name d = name_of n /\ ch_mode d = CmNormal
     /\ fine (child_fn kebab d n) x /\ holds v (ch_field d) (stored d x)
     /\ List.length (filter (fun m => text_eqb (name_of m) (name_of n)) ns) = 1)
  \/ (exists d x xs, In d (the_children kebab fs) /\ ch_name d = name_of n /\ ch_mode d = CmMulti
     /\ fine (child_fn kebab d n) x /\ In x xs
     /\ holds v (ch_field d) (if ch_option d then VSome (VList xs) else VList xs))
  \/ (exists d, In d (the_children kebab fs) /\ ch_name d = name_of n /\ ch_mode d = CmBool
     /\ flag_errors (s_value n) = [] /\ holds v (ch_field d) (VBool true)
     /\ List.length (filter (fun m => text_eqb (name_of m) (name_of n)) ns) = 1)
  \/ (exists f u x xs, the_var_children fs = Some (f, u)
     /\ ~ In (name_of n) (map ch_name (the_children kebab fs))
     /\ fine (node_fn kebab f u n) x /\ In x xs /\ holds v f (VList xs)).

Definition type_name_handed (n : node Sp) : Prop :=
  n_type_name n = None \/ flat_map type_names_of (numbered fs) <> [].

End Hand.

(** The same for any struct, without saying what is held: a flattened field may take a
    property or a child. *)
Section Take.
Context {Sp L : Type} (kebab : text -> text) (fs : list (src_field Sp L)).

Definition prop_took (k : spanned text Sp) (a : value Sp) : Prop :=
  (exists p, In p (the_properties kebab fs)
     /\ if pr_flatten p then
          exists x x', fine (ti_insert_property (f_impl (pr_field p)) x k a) (true, x')
        else
          pr_name p = s_value k
          /\ exists x, fine (decode_value (pr_decode p) (pr_option p) (f_impl (pr_field p)) a) x)
  \/ (exists f m kk x, the_var_props fs = Some (f, m)
     /\ ti_key_from_str (f_impl f) (s_value k) = inl kk
     /\ fine (decode_value m false (f_impl f) a) x).

Definition child_took (n : snode Sp) : Prop :=
  (exists d, In d (the_children kebab fs)
     /\ match ch_mode d with
        | CmFlatten => exists x x', fine (ti_insert_child (f_impl (ch_field d)) x n) (true, x')
        | CmBool => ch_name d = name_of n /\ flag_errors (s_value n) = []
        | _ => ch_name d = name_of n /\ exists x, fine (child_fn kebab d n) x
        end)
  \/ (exists f u x, the_var_children fs = Some (f, u) /\ fine (node_fn kebab f u n) x).

End Take.

(** What the field of a child holds, given the nodes: [dn] decodes a node for it. *)
Definition named_nodes {Sp} (name : text) (ns : list (snode Sp)) : list (snode Sp) :=
  filter (fun n => text_eqb (name_of n) name) ns.

Inductive child_is {Sp L} (ns : list (snode Sp)) (dn : child Sp L -> node_impl Sp (dval L))
    (d : child Sp L) : dval L -> Prop :=
| CI_flag b : ch_mode d = CmBool -> (b = true <-> In (ch_name d) (map name_of ns)) ->
    child_is ns dn d (VBool b)
| CI_single n x c1 c2 : ch_mode d = CmNormal -> named_nodes (ch_name d) ns = [n] ->
    dn d n c1 = (c2, DOk x) -> child_is ns dn d (stored d x)
| CI_multi xs : ch_mode d = CmMulti -> named_nodes (ch_name d) ns <> [] ->
    Forall2 (fun n x => exists c1 c2, dn d n c1 = (c2, DOk x)) (named_nodes (ch_name d) ns) xs ->
    child_is ns dn d (if ch_option d then VSome (VList xs) else VList xs)
| CI_absent y : ch_mode d = CmNormal \/ ch_mode d = CmMulti -> named_nodes (ch_name d) ns = [] ->
    absent (ch_default d) (ch_option d) y -> child_is ns dn d y
| CI_multi_empty : ch_mode d = CmMulti -> named_nodes (ch_name d) ns = [] ->
    ch_default d = None -> ch_option d = false -> child_is ns dn d (VList []).

(** The properties and children that no field asks for, and what the children of a node
    or a document are decoded to. *)
Section Rest.
Context {Sp L : Type} (kebab : text -> text) (fs : list (src_field Sp L)).

Definition not_field (kv : spanned text Sp * value Sp) : bool :=
  negb (existsb (text_eqb (s_value (fst kv))) (map pr_name (the_properties kebab fs))).

Definition not_child (n : snode Sp) : bool :=
  negb (existsb (text_eqb (name_of n)) (map ch_name (the_children kebab fs))).

Definition children_held (v : dval L) (ns : list (snode Sp)) : Prop :=
  (forall h, In h (the_children kebab fs) ->
     exists y, holds v (ch_field h) y /\ child_is ns (child_fn kebab) h y)
  /\ (forall f u, the_var_children fs = Some (f, u) ->
     exists xs, holds v f (VList xs)
       /\ Forall2 (fun n x => exists c1 c2, node_fn kebab f u n c1 = (c2, DOk x))
            (filter not_child ns) xs).

End Rest.

(** The derive accepts a struct, and gives [d] for it; newtypes are apart (C43). *)
Definition derives_struct {Sp L} (kebab : text -> text) (named : bool) (ident : text)
    (cont : list (attr L)) (fs : list (src_field Sp L)) (d : derived Sp L) : Prop :=
  decode_derive kebab (struct_item named ident cont fs) = Some d
  /\ proper named fs /\ ~ newtype named fs.

(** All of a node was handed to decoders. *)
Definition node_handed {Sp L} (kebab : text -> text) (fs : list (src_field Sp L)) (v : dval L)
    (n : snode Sp) : Prop :=
  (forall i a, nth_error (n_arguments (s_value n)) i = Some a -> arg_handed fs v i a)
  /\ (forall k a, In (k, a) (n_properties (s_value n)) -> prop_handed kebab fs v k a)
  /\ (forall m, In m (node_children (s_value n)) ->
        child_handed kebab fs v (node_children (s_value n)) m)
  /\ type_name_handed fs (s_value n).

Definition node_taken {Sp L} (kebab : text -> text) (fs : list (src_field Sp L)) (v : dval L)
    (n : snode Sp) : Prop :=
  (forall i a, nth_error (n_arguments (s_value n)) i = Some a -> arg_handed fs v i a)
  /\ (forall k a, In (k, a) (n_properties (s_value n)) -> prop_took kebab fs k a)
  /\ (forall m, In m (node_children (s_value n)) -> child_took kebab fs m)
  /\ type_name_handed fs (s_value n).

(** A field of which there may be one element: it holds the decoded element, or without
    one the default, or else [None] if it is optional. *)
Definition default_rule {Sp L E} (v : dval L) (f : field Sp L) (default : option (dval L))
    (optional : bool) (there : list E) (decoder : E -> dec Sp (dval L))
    (store : dval L -> dval L) : Prop :=
  (there = [] ->
     (forall y, default = Some y -> holds v f y)
     /\ (default = None -> optional = true -> holds v f VNone))
  /\ (forall a, there = [a] ->
     exists c1 c2 x, decoder a c1 = (c2, DOk x) /\ holds v f (store x)).
