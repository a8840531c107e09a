(** What a child field with [unwrap(...)] should make of a node. *)

From Coq Require Import NArith List Bool String.
From Verif Require Import Chars Ast Errors Decode DeriveDef Derive DeriveSpec HandSpec.
Import ListNotations.

Section Unwrap.
Context {Sp L : Type} (kebab : text -> text).
Implicit Types (n : snode Sp) (f : field Sp L) (x : dval L) (c : context Sp).

(** What is inside [unwrap(...)]: [argument], [argument, str], [property(name=..)] and so
    on; [inner] is an [unwrap(...)] inside, [default] a default inside. *)
Definition inside (mode : field_mode) (parse : option decode_mode)
    (inner : option (field_attrs L)) (default : option (dval L)) : field_attrs L :=
  FieldAttrs (Some mode) parse inner default.

Definition parse_mode (parse : option decode_mode) : decode_mode :=
  match parse with Some m => m | None => DmNormal end.

(** The value of the thing that is unwrapped. *)
Definition value_for f (parse : option decode_mode) : value Sp -> dec Sp (dval L) :=
  decode_value (parse_mode parse) false (f_impl f).

(** Every child of the node is reported. *)
Definition no_child n : list (derror Sp) := map unknown_error (node_children (s_value n)).

(** The only argument, or the default; no properties; the children are reported. *)
Definition unwraps_argument f parse default n c x c' : Prop :=
  n_properties (s_value n) = []
  /\ exists c1,
       ((exists a, n_arguments (s_value n) = [a] /\ value_for f parse a c = (c1, DOk x))
        \/ (n_arguments (s_value n) = [] /\ default = Some x /\ c1 = c))
       /\ c' = with_errors c1 (no_child n).

(** All arguments, in order. *)
Definition unwraps_arguments f parse n c x c' : Prop :=
  n_properties (s_value n) = []
  /\ exists xs c1,
       in_turn (gives (value_for f parse)) [] (n_arguments (s_value n)) c xs c1
       /\ x = VList xs /\ c' = with_errors c1 (no_child n).

(** The only property, which has the name, or the default. *)
Definition unwraps_property f parse default (name : text) n c x c' : Prop :=
  n_arguments (s_value n) = []
  /\ exists c1,
       ((exists k a, n_properties (s_value n) = [(k, a)] /\ s_value k = name
           /\ value_for f parse a c = (c1, DOk x))
        \/ (n_properties (s_value n) = [] /\ default = Some x /\ c1 = c))
       /\ c' = with_errors c1 (no_child n).

(** All properties with their names, in order. *)
Definition decodes_pair f parse (_ : list (spanned text Sp * value Sp))
    (kv : spanned text Sp * value Sp) c (kx : dval L * dval L) c' : Prop :=
  ti_key_from_str (f_impl f) (s_value (fst kv)) = inl (fst kx)
  /\ value_for f parse (snd kv) c = (c', DOk (snd kx)).

Definition unwraps_properties f parse n c x c' : Prop :=
  n_arguments (s_value n) = []
  /\ exists kxs c1,
       in_turn (decodes_pair f parse) [] (n_properties (s_value n)) c kxs c1
       /\ x = VPairs kxs /\ c' = with_errors c1 (no_child n).

(** All children, in order, by the decoder of the type or of what is unwrapped inside. *)
Definition unwraps_children (decoder : node_impl Sp (dval L)) n c x c' : Prop :=
  n_arguments (s_value n) = [] /\ n_properties (s_value n) = []
  /\ exists xs, in_turn (gives decoder) [] (node_children (s_value n)) c xs c' /\ x = VList xs.

(** The children of a name, in order; the others are reported. *)
Inductive named_values (decoder : node_impl Sp (dval L)) (name : text)
  : list (snode Sp) -> context Sp -> list (dval L) -> context Sp -> Prop :=
| NV_nil c : named_values decoder name [] c [] c
| NV_take n ns c c1 c2 x xs :
    name_of n = name -> decoder n c = (c1, DOk x) -> named_values decoder name ns c1 xs c2 ->
    named_values decoder name (n :: ns) c (x :: xs) c2
| NV_other n ns c c2 xs :
    name_of n <> name -> named_values decoder name ns (with_errors c [unknown_error n]) xs c2 ->
    named_values decoder name (n :: ns) c xs c2.

Definition unwraps_named (decoder : node_impl Sp (dval L)) default name n c x c' : Prop :=
  n_arguments (s_value n) = [] /\ n_properties (s_value n) = []
  /\ exists xs, named_values decoder name (node_children (s_value n)) c xs c'
       /\ match xs, default with
          | [], Some d => x = d
          | _, _ => x = VList xs
          end.

(** The only child of the name, or the default. *)
Definition unwraps_child (decoder : node_impl Sp (dval L)) default name n c x c' : Prop :=
  n_arguments (s_value n) = [] /\ n_properties (s_value n) = []
  /\ exists xs, named_values decoder name (node_children (s_value n)) c xs c'
       /\ match xs with
          | [] => default = Some x
          | [y] => x = y
          | _ => False
          end.

End Unwrap.

(** If there is no error, this is all there is in the node. *)
Section Inside.
Context {Sp L : Type} (kebab : text -> text) (f : field Sp L) (parse : option decode_mode)
  (inner : option (field_attrs L)) (default : option (dval L)) (n : snode Sp).

(** The node has these arguments, properties and children, and no others. *)
Definition consists (args : list (value Sp)) (props : list (spanned text Sp * value Sp))
    (children : list (snode Sp)) : Prop :=
  n_arguments (s_value n) = args /\ n_properties (s_value n) = props
  /\ node_children (s_value n) = children.

Inductive all_inside : field_mode -> dval L -> Prop :=
| AI_argument a x : consists [a] [] [] -> fine (value_for f parse a) x -> all_inside FmArgument x
| AI_no_argument x : consists [] [] [] -> default = Some x -> all_inside FmArgument x
| AI_arguments args xs : consists args [] [] ->
    Forall2 (fun a x => fine (value_for f parse a) x) args xs -> all_inside FmArguments (VList xs)
| AI_property name k a x : consists [] [(k, a)] [] ->
    s_value k = match name with Some t => t | None => kebab (tmp_name (f_attr f)) end ->
    fine (value_for f parse a) x -> all_inside (FmProperty name) x
| AI_no_property name x : consists [] [] [] -> default = Some x -> all_inside (FmProperty name) x
| AI_properties kvs kxs : consists [] kvs [] ->
    Forall2 (fun kv kx => ti_key_from_str (f_impl f) (s_value (fst kv)) = inl (fst kx)
                          /\ fine (value_for f parse (snd kv)) (snd kx)) kvs kxs ->
    all_inside FmProperties (VPairs kxs)
| AI_children ns xs : consists [] [] ns ->
    Forall2 (fun m x => fine (node_fn kebab f inner m) x) ns xs ->
    all_inside (FmChildren None) (VList xs)
| AI_named name ns xs : consists [] [] ns -> Forall (fun m => name_of m = name) ns ->
    Forall2 (fun m x => fine (node_fn kebab f inner m) x) ns xs ->
    (ns <> [] \/ default = None) -> all_inside (FmChildren (Some name)) (VList xs)
| AI_no_named name x : consists [] [] [] -> default = Some x ->
    all_inside (FmChildren (Some name)) x
| AI_child m x : consists [] [] [m] -> name_of m = kebab (tmp_name (f_attr f)) ->
    fine (node_fn kebab f inner m) x -> all_inside FmChild x
| AI_no_child x : consists [] [] [] -> default = Some x -> all_inside FmChild x.

(** What may be unwrapped. *)
Definition unwrappable (m : field_mode) : Prop :=
  match m with
  | FmArgument | FmArguments | FmProperty _ | FmProperties | FmChild | FmChildren _ => True
  | _ => False
  end.

End Inside.
