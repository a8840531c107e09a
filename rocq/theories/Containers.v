(** Model of the node implementations of src/containers.rs and
    src/convert_ast.rs. *)

From Coq Require Import NArith List Bool String.
From Verif Require Import Chars Ast Errors Chumsky Spans Decode Scalar.
Import ListNotations.

(** src/containers.rs:12-18, 55-61 and 101-107: [Decode] for [Box], [Arc] and
    [Rc]. *)
Definition wrapped_node {Sp A B} (wrap : A -> B) (d : node_impl Sp A) : node_impl Sp B :=
  fun n => d_map wrap (d n).

(** src/containers.rs:20-26, 63-69 and 109-115: [DecodeChildren] for them. *)
Definition wrapped_children {Sp A B} (wrap : A -> B) (d : children_impl Sp A)
  : children_impl Sp B :=
  fun ns => d_map wrap (d ns).

(** [Box]. *)
Record boxed (A : Type) := Boxed { bx_value : A }.
Arguments Boxed {A}.
Arguments bx_value {A}.

(** [Arc] and [Rc]: the value, and how many pointers to it there are, weak ones
    included. *)
Record shared (A : Type) := Shared { sh_owners : N; sh_value : A }.
Arguments Shared {A}.
Arguments sh_owners {A}.
Arguments sh_value {A}.

(** [Arc::new] and [Rc::new]. *)
Definition shared_new {A} (a : A) : shared A := Shared 1 a.

(** [Arc::get_mut] and [Rc::get_mut]: only if there is no other pointer. *)
Definition get_mut {A} (p : shared A) : option A :=
  if N.eqb (sh_owners p) 1 then Some (sh_value p) else None.

(** src/traits.rs:36-53 [DecodePartial], with [&mut self] given and returned. *)
Record partial_impl (Sp A : Type) := PartialImpl {
  pi_insert_child : A -> snode Sp -> dec Sp (bool * A);
  pi_insert_property : A -> spanned text Sp -> value Sp -> dec Sp (bool * A);
}.
Arguments PartialImpl {Sp A}.
Arguments pi_insert_child {Sp A}.
Arguments pi_insert_property {Sp A}.

(** src/containers.rs:28-41 [DecodePartial] for [Box]. *)
Definition boxed_partial {Sp A} (i : partial_impl Sp A) : partial_impl Sp (boxed A) :=
  PartialImpl
    (fun b n => d_map (fun '(t, x) => (t, Boxed x)) (pi_insert_child i (bx_value b) n))
    (fun b k v => d_map (fun '(t, x) => (t, Boxed x)) (pi_insert_property i (bx_value b) k v)).

(** src/containers.rs:71-86 and 117-132: for [Arc] and [Rc]. *)
Definition shared_partial {Sp A} (i : partial_impl Sp A) : partial_impl Sp (shared A) :=
  PartialImpl
    (fun p n =>
       match get_mut p with
       | Some a => d_map (fun '(t, x) => (t, Shared (sh_owners p) x)) (pi_insert_child i a n)
       | None => d_panic
       end)
    (fun p k v =>
       match get_mut p with
       | Some a => d_map (fun '(t, x) => (t, Shared (sh_owners p) x)) (pi_insert_property i a k v)
       | None => d_panic
       end).

(** src/containers.rs:147-160 [DecodeChildren for Vec<T>]: the loop, with the
    values pushed so far. *)
Fixpoint vec_loop {Sp A} (d : node_impl Sp A) (ns : list (snode Sp)) (acc : list A)
  : dec Sp (list A) :=
  fun c =>
  match ns with
  | [] => (c, DOk acc)
  | n :: ns' =>
      match d n c with
      | (c', DOk a) => vec_loop d ns' (acc ++ [a]) c'
      | (c', DErr e) => vec_loop d ns' acc (emit_error e c')
      | (c', DPanic) => (c', DPanic)
      end
  end.

Definition vec_children {Sp A} (d : node_impl Sp A) : children_impl Sp (list A) :=
  fun ns => vec_loop d ns [].

(** [collect] of key-value pairs into a [BTreeMap]. *)
Definition btree_collect {Sp V} (l : list (spanned text Sp * V)) : list (spanned text Sp * V) :=
  fold_left (fun m kv => props_insert (fst kv) (snd kv) m) l [].

(** A decoder without failure, such as [clone_as], in the place of a decoder. *)
Definition d_pure {Sp A} (f : context Sp -> context Sp * A) : dec Sp A :=
  fun c => let '(c', a) := f c in (c', DOk a).

(** src/convert_ast.rs:7-38 [Decode for Node<T>]. *)
Fixpoint ast_node {Sp Q} (ds : span_impl Sp Q) (n : node Sp) : dec Sp (node Q) :=
  match n with
  | Node ty nm args props ch =>
      d_bind (match ty with
              | Some t => d_map Some (d_pure (clone_as ds t))
              | None => d_ok None
              end) (fun ty' =>
      d_bind (d_pure (clone_as ds nm)) (fun nm' =>
      d_bind (d_collect (value_decode ds) args) (fun args' =>
      d_bind (d_collect (fun kv => d_bind (d_pure (clone_as ds (fst kv))) (fun k' =>
                           d_bind (value_decode ds (snd kv)) (fun v' => d_ok (k', v')))) props)
        (fun props' =>
      d_bind (match ch with
              | None => d_ok None
              | Some sc =>
                  d_bind (d_pure (ds (s_span sc))) (fun sp' =>
                  d_bind ((fix go (l : list (snode Sp)) : dec Sp (list (snode Q)) :=
                             match l with
                             | [] => d_ok []
                             | sn :: l' =>
                                 d_bind (d_pure (ds (s_span sn))) (fun q =>
                                 d_bind (ast_node ds (s_value sn)) (fun n' =>
                                 d_bind (go l') (fun l'' => d_ok (Spanned q n' :: l''))))
                             end) (s_value sc)) (fun l' =>
                  d_ok (Some (Spanned sp' l'))))
              end) (fun ch' =>
      d_ok (Node ty' nm' args' (btree_collect props') ch'))))))
  end.

Definition ast_node_impl {Sp Q} (ds : span_impl Sp Q) : node_impl Sp (node Q) :=
  fun n => ast_node ds (s_value n).

(** src/convert_ast.rs:40-52 [Decode for SpannedNode<T>]. *)
Definition ast_snode_impl {Sp Q} (ds : span_impl Sp Q) : node_impl Sp (snode Q) :=
  fun n => d_bind (d_pure (ds (s_span n))) (fun q =>
           d_bind (ast_node_impl ds n) (fun n' => d_ok (Spanned q n'))).

(** src/traits.rs:94-98: the identity [DecodeSpan]. *)
Definition span_self {Sp} : span_impl Sp Sp := fun sp c => (c, sp).

(** src/span.rs:275-282: [DecodeSpan<LineSpan> for Span]. *)
Definition span_of_line : span_impl linespan span :=
  fun sp c => (c, Span (lp_offset (ls_start sp)) (lp_offset (ls_end sp))).
