(** Model of src/ast.rs, and of [Spanned] in src/span.rs. *)

From Coq Require Import NArith List Bool String.
From Verif Require Import Chars.
Import ListNotations.
Local Open Scope N_scope.

(** src/span.rs:24-31 [Spanned]. *)
Record spanned (T Sp : Type) := Spanned { s_span : Sp; s_value : T }.
Arguments Spanned {T Sp}.
Arguments s_span {T Sp}.
Arguments s_value {T Sp}.

(** src/span.rs:286-291 [Spanned::map]. *)
Definition spanned_map {T R Sp} (f : T -> R) (s : spanned T Sp) : spanned R Sp :=
  Spanned (s_span s) (f (s_value s)).

(** src/span.rs:293-298 [Spanned::map_span]. *)
Definition spanned_map_span {T Sp U} (f : Sp -> U) (s : spanned T Sp)
  : spanned T U :=
  Spanned (f (s_span s)) (s_value s).

(** src/ast.rs:59-71 [Radix]. *)
Inductive radix := Bin | Hex | Oct | Dec.

(** src/ast.rs:114-144 [BuiltinType]. *)
Inductive builtin :=
| U8 | I8 | U16 | I16 | U32 | I32 | U64 | I64 | Usize | Isize
| F32 | F64 | Base64.

(** src/ast.rs:104-112 [TypeName], [TypeNameInner]. *)
Inductive typename :=
| Builtin (b : builtin)
| Custom (t : text).

(** src/ast.rs:73-91, 146-177 [Literal]; [Integer] and [Decimal] are inlined. *)
Inductive literal :=
| LNull
| LBool (b : bool)
| LInt (r : radix) (digits : text)
| LDecimal (t : text)
| LString (t : text).

(** src/ast.rs:92-102 [Value]. *)
Record value (Sp : Type) := Value {
  v_type_name : option (spanned typename Sp);
  v_literal : spanned literal Sp;
}.
Arguments Value {Sp}.
Arguments v_type_name {Sp}.
Arguments v_literal {Sp}.

(** src/ast.rs:29-48 [Node].  [properties] is a [BTreeMap]: the list of its
    entries in key order. *)
Inductive node (Sp : Type) := Node {
  n_type_name : option (spanned typename Sp);
  n_node_name : spanned text Sp;
  n_arguments : list (value Sp);
  n_properties : list (spanned text Sp * value Sp);
  n_children : option (spanned (list (spanned (node Sp) Sp)) Sp);
}.
Arguments Node {Sp}.
Arguments n_type_name {Sp}.
Arguments n_node_name {Sp}.
Arguments n_arguments {Sp}.
Arguments n_properties {Sp}.
Arguments n_children {Sp}.

(** src/ast.rs:50-57 [Document]: its list of nodes. *)
Definition document (Sp : Type) := list (spanned (node Sp) Sp).

Definition snode (Sp : Type) := spanned (node Sp) Sp.

(** src/ast.rs:181-187 [Node::children]. *)
Definition node_children {Sp} (n : node Sp) : list (snode Sp) :=
  match n_children n with
  | Some c => s_value c
  | None => []
  end.

(** [BTreeMap::insert] with keys compared by [Spanned]'s order, which looks at
    the value only (src/span.rs:355-377).  On an equal key the old key is kept
    and the value replaced.  Used at src/grammar.rs:564. *)
Fixpoint props_insert {Sp V} (k : spanned text Sp) (v : V)
    (m : list (spanned text Sp * V)) : list (spanned text Sp * V) :=
  match m with
  | [] => [(k, v)]
  | (k', v') :: m' =>
      match text_compare (s_value k) (s_value k') with
      | Lt => (k, v) :: m
      | Eq => (k', v) :: m'
      | Gt => (k', v') :: props_insert k v m'
      end
  end.

(** [BTreeMap::get] by name ([Spanned<Box<str>, S>: Borrow<str>],
    src/span.rs:342-346). *)
Fixpoint props_get {Sp V} (k : text) (m : list (spanned text Sp * V))
  : option V :=
  match m with
  | [] => None
  | (k', v') :: m' =>
      match text_compare k (s_value k') with
      | Eq => Some v'
      | _ => props_get k m'
      end
  end.

(** src/ast.rs:192-209 [BuiltinType::as_str]. *)
Definition builtin_as_str (b : builtin) : text :=
  match b with
  | U8 => str "u8"
  | I8 => str "i8"
  | U16 => str "u16"
  | I16 => str "i16"
  | U32 => str "u32"
  | I32 => str "i32"
  | U64 => str "u64"
  | I64 => str "i64"
  | Usize => str "usize"
  | Isize => str "isize"
  | F32 => str "f32"
  | F64 => str "f64"
  | Base64 => str "base64"
  end.

(** src/ast.rs:246-265 [BuiltinType::from_str].  There is no entry for [usize]
    and [isize]. *)
Definition builtin_from_str (t : text) : option builtin :=
  if text_eqb t (str "u8") then Some U8
  else if text_eqb t (str "i8") then Some I8
  else if text_eqb t (str "u16") then Some U16
  else if text_eqb t (str "i16") then Some I16
  else if text_eqb t (str "u32") then Some U32
  else if text_eqb t (str "i32") then Some I32
  else if text_eqb t (str "u64") then Some U64
  else if text_eqb t (str "i64") then Some I64
  else if text_eqb t (str "f32") then Some F32
  else if text_eqb t (str "f64") then Some F64
  else if text_eqb t (str "base64") then Some Base64
  else None.

(** src/ast.rs:217-224 [TypeName::from_string] and src/ast.rs:267-276
    [FromStr for TypeName], which agree. *)
Definition typename_from_string (t : text) : typename :=
  match builtin_from_str t with
  | Some b => Builtin b
  | None => Custom t
  end.

(** src/ast.rs:226-231 [TypeName::as_str]. *)
Definition typename_as_str (t : typename) : text :=
  match t with
  | Builtin b => builtin_as_str b
  | Custom t => t
  end.

(** src/ast.rs:238-243 [TypeName::as_builtin]. *)
Definition typename_as_builtin (t : typename) : option builtin :=
  match t with
  | Builtin b => Some b
  | Custom _ => None
  end.

(** Erasure of spans: used to compare documents "spans aside". *)
Definition erase_spanned {T Sp} (s : spanned T Sp) : spanned T unit :=
  Spanned tt (s_value s).

Definition map_value_span {Sp U} (f : Sp -> U) (v : value Sp) : value U :=
  Value (option_map (spanned_map_span f) (v_type_name v))
        (spanned_map_span f (v_literal v)).

(** Applies a function to every span of a node.  This is also what the identity
    decoding of src/convert_ast.rs does with [decode_span]. *)
Fixpoint map_node_span {Sp U} (f : Sp -> U) (n : node Sp) : node U :=
  match n with
  | Node ty nm args props ch =>
      Node (option_map (spanned_map_span f) ty)
           (spanned_map_span f nm)
           (map (map_value_span f) args)
           (map (fun kv => (spanned_map_span f (fst kv),
                            map_value_span f (snd kv))) props)
           (match ch with
            | None => None
            | Some (Spanned sp l) =>
                Some (Spanned (f sp)
                  (map (fun sn => Spanned (f (s_span sn))
                                    (map_node_span f (s_value sn))) l))
            end)
  end.

Definition map_snode_span {Sp U} (f : Sp -> U) (n : snode Sp) : snode U :=
  Spanned (f (s_span n)) (map_node_span f (s_value n)).

Definition map_doc_span {Sp U} (f : Sp -> U) (d : document Sp) : document U :=
  map (map_snode_span f) d.
