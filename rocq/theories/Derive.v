(** Model of the code that derive/src/node.rs and derive/src/variants.rs generate:
    each generator is modelled by a function that does what the generated code does,
    given the tables of DeriveDef.v. *)

From Coq Require Import NArith List Bool String Arith.
From Verif Require Import Chars Ast Errors Chumsky Decode Scalar DeriveDef.
Import ListNotations.

(** [?] on the result of [from_str] or [try_into], with the error made into a
    conversion error at the span of [at_]. *)
Definition d_convert {T Sp A} (at_ : spanned T Sp) (r : A + source) : dec Sp A :=
  match r with
  | inl a => d_ok a
  | inr e => d_err (conversion at_ e)
  end.

(** node.rs:234-241 and 266-273: a type name on a value parsed with [str]. *)
Definition str_type_name {Sp} (v : value Sp) : dec Sp unit :=
  match v_type_name v with
  | Some typ =>
      d_emit (DTypeName (s_span typ) (Some (s_value typ)) et_no_types (str "str"))
  | None => d_ok tt
  end.

(** node.rs:220-310 [decode_value]. *)
Definition decode_value {Sp L} (mode : decode_mode) (optional : bool) (i : tyimpl Sp L)
    (v : value Sp) : dec Sp (dval L) :=
  match mode, optional with
  | DmNormal, _ => ti_scalar i v
  | DmStr, true =>
      d_bind (str_type_name v) (fun _ =>
      match s_value (v_literal v) with
      | LString s => d_map VSome (d_convert (v_literal v) (ti_from_str i s))
      | LNull => d_ok VNone
      | _ => d_bind (d_emit (scalar_kind KString (v_literal v))) (fun _ => d_ok VNone)
      end)
  | DmStr, false =>
      d_bind (str_type_name v) (fun _ =>
      match s_value (v_literal v) with
      | LString s => d_convert (v_literal v) (ti_from_str i s)
      | _ => d_err (scalar_kind KString (v_literal v))
      end)
  | DmBytes, true =>
      match s_value (v_literal v) with
      | LNull => d_ok VNone
      | _ => fun c =>
          let '(c', b) := bytes v c in
          match ti_from_bytes i b with
          | inl x => (c', DOk (VSome x))
          | inr e => (emit_error (conversion (v_literal v) e) c', DOk VNone)
          end
      end
  | DmBytes, false => fun c =>
      let '(c', b) := bytes v c in
      d_convert (v_literal v) (ti_from_bytes i b) c'
  end.

(** node.rs:312-379 [decode_specials]: the values of the [span], [node_name] and
    [type_name] fields, in this order. *)
Definition special_span {Sp L} (n : snode Sp) (f : field Sp L) : dec Sp (dval L) :=
  fun c => let '(c', v) := ti_span (f_impl f) (s_span n) c in (c', DOk v).

Definition special_node_name {Sp L} (n : snode Sp) (f : field Sp L) : dec Sp (dval L) :=
  d_convert (n_node_name (s_value n))
    (ti_from_str (f_impl f) (s_value (n_node_name (s_value n)))).

Definition special_type_name {Sp L} (n : snode Sp) (fo : field Sp L * bool)
  : dec Sp (dval L) :=
  let '(f, option) := fo in
  match n_type_name (s_value n) with
  | Some tn =>
      let r := d_convert tn (ti_from_str (f_impl f) (typename_as_str (s_value tn))) in
      if option then d_map VSome r else r
  | None =>
      if option then d_ok VNone else d_err (missing n (str "type name required"))
  end.

Definition decode_specials {Sp L} (s : struct Sp L) (n : snode Sp) : dec Sp (list (dval L)) :=
  d_bind (d_collect (special_span n) (st_spans s)) (fun spans =>
  d_bind (d_collect (special_node_name n) (st_node_names s)) (fun names =>
  d_bind (d_collect (special_type_name n) (st_type_names s)) (fun types =>
  d_bind (match st_type_names s, n_type_name (s_value n) with
          | [], Some tn =>
              d_emit (unexpected tn (str "type name") (str "no type name expected for this node"))
          | _, _ => d_ok tt
          end) (fun _ =>
  d_ok (spans ++ names ++ types))))).

(** node.rs:381-451 [decode_args]: the loop over the fields; [it] is the iterator
    over the arguments. *)
Definition arg_required {Sp L} (a : arg Sp L) : text :=
  if is_indexed (ar_field a) then str "additional argument is required"
  else str "additional argument `" ++ tmp_name (f_attr (ar_field a)) ++ str "` is required".

Fixpoint arg_fields {Sp L} (n : snode Sp) (l : list (arg Sp L)) (it : list (value Sp))
  : dec Sp (list (dval L) * list (value Sp)) :=
  match l with
  | [] => d_ok ([], it)
  | a :: l' =>
      d_bind (match it with
              | v :: it' =>
                  d_map (fun x => (x, it'))
                    (decode_value (ar_decode a) (ar_option a) (f_impl (ar_field a)) v)
              | [] =>
                  match ar_default a, ar_kind_option a with
                  | None, true => d_ok (VNone, [])
                  | None, false => d_err (missing n (arg_required a))
                  | Some d, _ => d_ok (d, [])
                  end
              end) (fun '(x, it') =>
      d_map (fun '(xs, it'') => (x :: xs, it'')) (arg_fields n l' it'))
  end.

Definition decode_args {Sp L} (s : struct Sp L) (n : snode Sp) : dec Sp (list (dval L)) :=
  d_bind (arg_fields n (st_arguments s) (n_arguments (s_value n))) (fun '(xs, it) =>
  match st_var_args s with
  | Some (f, mode) =>
      d_map (fun ys => xs ++ [VList ys]) (d_collect (decode_value mode false (f_impl f)) it)
  | None =>
      match it with
      | v :: _ => d_err (unexpected_arg v)
      | [] => d_ok xs
      end
  end).

(** node.rs:453-567 [decode_props]: the local variables of a property. *)
Inductive prop_slot (L : Type) :=
| PFlat (v : dval L)
| POption (v : dval L) (seen : bool)
| PPlain (v : option (dval L)).
Arguments PFlat {L}.
Arguments POption {L}.
Arguments PPlain {L}.

(** [declare_empty]. *)
Definition prop_start {Sp L} (p : prop Sp L) : prop_slot L :=
  if pr_flatten p then PFlat (ti_default (f_impl (pr_field p)))
  else if pr_option p then POption VNone false
  else PPlain None.

(** [match_branches]: whether a branch took the property, and the new variables.  A
    flattened field may change even if it does not take the property. *)
Fixpoint prop_branches {Sp L} (ps : list (prop Sp L)) (slots : list (prop_slot L))
    (name : spanned text Sp) (v : value Sp) : dec Sp (bool * list (prop_slot L)) :=
  match ps, slots with
  | p :: ps', sl :: slots' =>
      let i := f_impl (pr_field p) in
      match sl with
      | PFlat x =>
          d_bind (ti_insert_property i x name v) (fun '(taken, x') =>
          if taken then d_ok (true, PFlat x' :: slots')
          else d_map (fun '(t, ss) => (t, PFlat x' :: ss)) (prop_branches ps' slots' name v))
      | _ =>
          if text_eqb (s_value name) (pr_name p) then
            d_map (fun x => (true, (if pr_option p then POption x true else PPlain (Some x))
                                     :: slots'))
              (decode_value (pr_decode p) (pr_option p) i v)
          else d_map (fun '(t, ss) => (t, sl :: ss)) (prop_branches ps' slots' name v)
      end
  | _, _ => d_ok (false, slots)
  end.

(** The loop over the properties; [rest] are the pairs pushed for [properties]. *)
Fixpoint prop_loop {Sp L} (s : struct Sp L) (slots : list (prop_slot L))
    (rest : list (dval L * dval L)) (kvs : list (spanned text Sp * value Sp))
  : dec Sp (list (prop_slot L) * list (dval L * dval L)) :=
  match kvs with
  | [] => d_ok (slots, rest)
  | (name, v) :: kvs' =>
      d_bind (prop_branches (st_properties s) slots name v) (fun '(taken, slots') =>
      if taken then prop_loop s slots' rest kvs'
      else
        match st_var_props s with
        | Some (f, mode) =>
            d_bind (d_convert name (ti_key_from_str (f_impl f) (s_value name))) (fun k =>
            d_bind (decode_value mode false (f_impl f) v) (fun x =>
            prop_loop s slots' (rest ++ [(k, x)]) kvs'))
        | None => d_err (unexpected_prop name)
        end)
  end.

(** [postprocess]. *)
Definition prop_finish {Sp L} (n : snode Sp) (ps : prop Sp L * prop_slot L)
  : dec Sp (dval L) :=
  let '(p, sl) := ps in
  match sl with
  | PFlat x => d_ok x
  | POption x seen =>
      match pr_default p with
      | Some d => d_ok (if seen then x else d)
      | None => d_ok x
      end
  | PPlain (Some x) => d_ok x
  | PPlain None =>
      match pr_default p with
      | Some d => d_ok d
      | None =>
          d_err (missing n (str "property `" ++ pr_name p ++ str "` is required"))
      end
  end.

Definition decode_props {Sp L} (s : struct Sp L) (n : snode Sp) : dec Sp (list (dval L)) :=
  d_bind (prop_loop s (map prop_start (st_properties s)) [] (n_properties (s_value n)))
    (fun '(slots, rest) =>
  d_map (fun xs => xs ++ match st_var_props s with Some _ => [VPairs rest] | None => [] end)
    (d_collect (prop_finish n) (combine (st_properties s) slots))).

(** node.rs:752-952 [decode_children]: the local variables of a child. *)
Inductive child_slot (L : Type) :=
| CFlat (v : dval L)
| CMulti (vs : list (dval L))
| CNormal (v : option (dval L))
| CBool (b : bool).
Arguments CFlat {L}.
Arguments CMulti {L}.
Arguments CNormal {L}.
Arguments CBool {L}.

Definition child_start {Sp L} (d : child Sp L) : child_slot L :=
  match ch_mode d with
  | CmFlatten => CFlat (ti_default (f_impl (ch_field d)))
  | CmMulti => CMulti []
  | CmNormal => CNormal None
  | CmBool => CBool false
  end.

(** node.rs:671-672, 687-688, 832-834 and 880-882: the duplicate error. *)
Definition duplicate_node {Sp L} (d : child Sp L) (n : snode Sp) : derror Sp :=
  unexpected (n_node_name (s_value n)) (str "node")
    (backquoted (str "duplicate node ") (ch_name d) ++ str ", single node expected").

(** [match_branches]; [dn] gives the function that decodes a node for a child
    (node.rs:620-626). *)
Fixpoint child_branches {Sp L} (dn : child Sp L -> node_impl Sp (dval L))
    (ds : list (child Sp L)) (slots : list (child_slot L)) (n : snode Sp)
  : dec Sp (bool * list (child_slot L)) :=
  match ds, slots with
  | d :: ds', sl :: slots' =>
      match sl with
      | CFlat x =>
          d_bind (ti_insert_child (f_impl (ch_field d)) x n) (fun '(taken, x') =>
          if taken then d_ok (true, CFlat x' :: slots')
          else d_map (fun '(t, ss) => (t, CFlat x' :: ss)) (child_branches dn ds' slots' n))
      | _ =>
          if text_eqb (s_value (n_node_name (s_value n))) (ch_name d) then
            match sl with
            | CMulti xs => d_map (fun x => (true, CMulti (xs ++ [x]) :: slots')) (dn d n)
            | CNormal (Some _) => d_err (duplicate_node d n)
            | CNormal None => d_map (fun x => (true, CNormal (Some x) :: slots')) (dn d n)
            | CBool b => fun c =>
                let c' := check_flag_node n c in
                if b then (emit_error (duplicate_node d n) c', DOk (true, CBool b :: slots'))
                else (c', DOk (true, CBool true :: slots'))
            | CFlat _ => d_ok (false, slots)
            end
          else d_map (fun '(t, ss) => (t, sl :: ss)) (child_branches dn ds' slots' n)
      end
  | _, _ => d_ok (false, slots)
  end.

(** [flat_map] and [collect]: stops at the first error.  [dv] decodes a node for
    [children], if there is such a field. *)
Fixpoint child_loop {Sp L} (dn : child Sp L -> node_impl Sp (dval L))
    (dv : option (node_impl Sp (dval L))) (ds : list (child Sp L))
    (slots : list (child_slot L)) (rest : list (dval L)) (ns : list (snode Sp))
  : dec Sp (list (child_slot L) * list (dval L)) :=
  match ns with
  | [] => d_ok (slots, rest)
  | n :: ns' =>
      d_bind (child_branches dn ds slots n) (fun '(taken, slots') =>
      if taken then child_loop dn dv ds slots' rest ns'
      else
        match dv with
        | Some d => d_bind (d n) (fun x => child_loop dn dv ds slots' (rest ++ [x]) ns')
        | None =>
            d_bind (d_emit (unexpected_node n)) (fun _ => child_loop dn dv ds slots' rest ns')
        end)
  end.

(** [postprocess]; [err_span] is the span of the node, or nothing for a document. *)
Definition child_finish {Sp L} (err_span : option Sp) (ds : child Sp L * child_slot L)
  : dec Sp (dval L) :=
  let '(d, sl) := ds in
  match sl with
  | CFlat x => d_ok x
  | CBool b => d_ok (VBool b)
  | CMulti xs =>
      let collected := if ch_option d then VSome (VList xs) else VList xs in
      match xs, ch_default d with
      | [], Some v => d_ok v
      | [], None => d_ok (if ch_option d then VNone else VList [])
      | _, _ => d_ok collected
      end
  | CNormal x =>
      match ch_default d with
      | Some v => d_ok (match x with Some y => y | None => v end)
      | None =>
          if ch_option d then d_ok (match x with Some y => VSome y | None => VNone end)
          else
            match x with
            | Some y => d_ok y
            | None =>
                let m := str "child node `" ++ ch_name d ++ str "` is required" in
                d_err (match err_span with Some sp => DMissing sp m | None => DMissingNode m end)
            end
      end
  end.

Definition decode_children {Sp L} (dn : child Sp L -> node_impl Sp (dval L))
    (dv : option (node_impl Sp (dval L))) (s : struct Sp L) (err_span : option Sp)
    (ns : list (snode Sp)) : dec Sp (list (dval L)) :=
  d_bind (child_loop dn dv (st_children s) (map child_start (st_children s)) [] ns)
    (fun '(slots, rest) =>
  d_map (fun xs => xs ++ match dv with Some _ => [VList rest] | None => [] end)
    (d_collect (child_finish err_span) (combine (st_children s) slots))).

(** The implementations that a derive gives to a type. *)
Record derived (Sp L : Type) := Derived {
  dr_node : node_impl Sp (dval L);
  dr_children : option (children_impl Sp (dval L));
  dr_insert_child : option (dval L -> snode Sp -> dec Sp (bool * dval L));
  dr_insert_property :
    option (dval L -> spanned text Sp -> value Sp -> dec Sp (bool * dval L));
}.
Arguments Derived {Sp L}.
Arguments dr_node {Sp L}.
Arguments dr_children {Sp L}.
Arguments dr_insert_child {Sp L}.
Arguments dr_insert_property {Sp L}.

Section Kebab.

Variable kebab : text -> text.

(** node.rs:569-607 [unwrap_fn].  The struct has one field, added to an empty builder
    under a name, for which [add_field] has no error; so at most one of the tables
    has an entry, and a child in it has the [unwrap] of these attributes
    (UnwrapProps.v proves both, per mode).  Its value is the variable of that name.  If no
    table that is decoded has the field ([unwrap()], [unwrap(span)] and the like),
    the generated code has an unbound variable and rustc rejects it; here it
    panics, and [unwrap_compiles] below is false. *)
Definition unwrap_struct {Sp L} (name : text) (i : tyimpl Sp L) (a : field_attrs L)
  : struct Sp L :=
  match add_field kebab (builder_new (str "Wrap_" ++ name)) (new_named name i) false false a with
  | inl b => build b
  | inr _ => build (builder_new [])
  end.

Fixpoint unwrap_fn {Sp L} (name : text) (i : tyimpl Sp L) (a : field_attrs L)
  : node_impl Sp (dval L) :=
  match a with
  | FieldAttrs mode decode unwrap default =>
      let inner : node_impl Sp (dval L) :=
        match unwrap with
        | Some u => unwrap_fn name i u
        | None => ti_node i
        end in
      let s := unwrap_struct name i (FieldAttrs mode decode unwrap default) in
      fun n =>
        d_bind (decode_args s n) (fun xs =>
        d_bind (decode_props s n) (fun ys =>
        d_bind (decode_children (fun _ => inner)
                  (match st_var_children s with Some _ => Some inner | None => None end)
                  s (Some (s_span n)) (node_children (s_value n))) (fun zs =>
        match rev (xs ++ ys ++ zs) with
        | x :: _ => d_ok x
        | [] => d_panic
        end)))
  end.

(** node.rs:569-607 again: whether what [unwrap_fn] does in the macro and the code it
    generates are free of compile errors.  [add_field] emits none for the field, the
    variable [name] of the [Ok(name)] is bound by one of the tables, and the same holds
    for the [unwrap] of a child. *)
Fixpoint unwrap_compiles {Sp L} (name : text) (i : tyimpl Sp L) (a : field_attrs L) : bool :=
  match a with
  | FieldAttrs mode decode unwrap default =>
      match add_field kebab (builder_new (str "Wrap_" ++ name)) (new_named name i) false false
              (FieldAttrs mode decode unwrap default) with
      | inr _ => false
      | inl b =>
          is_nil (sb_emitted b)
          && negb (is_nil (sb_arguments b) && negb (is_some (sb_var_args b))
                   && is_nil (sb_properties b) && negb (is_some (sb_var_props b))
                   && is_nil (sb_children b) && negb (is_some (sb_var_children b)))
          && (if existsb (fun d => is_some (ch_unwrap d)) (sb_children b)
                 || match sb_var_children b with Some (_, u) => is_some u | None => false end
              then match unwrap with Some u => unwrap_compiles name i u | None => true end
              else true)
      end
  end.

(** node.rs:620-626 and 901-911: the same for each child field of a struct. *)
Definition unwraps_compile {Sp L} (s : struct Sp L) : bool :=
  let ok (f : field Sp L) (unwrap : option (field_attrs L)) :=
    match unwrap with
    | Some u => unwrap_compiles (tmp_name (f_attr f)) (f_impl f) u
    | None => true
    end in
  forallb (fun d => ok (ch_field d) (ch_unwrap d)) (st_children s)
  && match st_var_children s with Some (f, u) => ok f u | None => true end.

(** node.rs:620-626 and 905-911: what decodes a node for a child field. *)
Definition node_fn {Sp L} (f : field Sp L) (unwrap : option (field_attrs L))
  : node_impl Sp (dval L) :=
  match unwrap with
  | Some u => unwrap_fn (tmp_name (f_attr f)) (f_impl f) u
  | None => ti_node (f_impl f)
  end.

Definition child_fn {Sp L} (d : child Sp L) : node_impl Sp (dval L) :=
  node_fn (ch_field d) (ch_unwrap d).

Definition var_child_fn {Sp L} (s : struct Sp L) : option (node_impl Sp (dval L)) :=
  match st_var_children s with
  | Some (f, u) => Some (node_fn f u)
  | None => None
  end.

Definition struct_children {Sp L} (s : struct Sp L) (err_span : option Sp)
    (ns : list (snode Sp)) : dec Sp (list (dval L)) :=
  decode_children child_fn (var_child_fn s) s err_span ns.

(** node.rs:954-964 [assign_extra]. *)
Definition assign_extra {Sp L} (s : struct Sp L) : list (dval L) :=
  map (fun fo => ti_default (f_impl (fst fo))) (st_extra s).

(** The fields of [self]. *)
Definition access_eqb (a b : access) : bool :=
  match a, b with
  | Indexed i, Indexed j => Nat.eqb i j
  | Named m, Named n => text_eqb m n
  | _, _ => false
  end.

Fixpoint get_field {L} (a : access) (fs : list (access * dval L)) : option (dval L) :=
  match fs with
  | [] => None
  | (b, v) :: fs' => if access_eqb a b then Some v else get_field a fs'
  end.

Fixpoint set_field {L} (a : access) (x : dval L) (fs : list (access * dval L))
  : list (access * dval L) :=
  match fs with
  | [] => []
  | (b, v) :: fs' => if access_eqb a b then (b, x) :: fs' else (b, v) :: set_field a x fs'
  end.

(** node.rs:658-708 [insert_child], on the fields of [self].  A field of [self] that
    does not have the type of the definition panics here (rustc excludes it), as does
    [push] on an [Option] (which rustc rejects). *)
Fixpoint insert_child {Sp L} (ds : list (child Sp L)) (self : list (access * dval L))
    (n : snode Sp) : dec Sp (bool * list (access * dval L)) :=
  match ds with
  | [] => d_ok (false, self)
  | d :: ds' =>
      let a := f_attr (ch_field d) in
      match ch_mode d with
      | CmFlatten =>
          match get_field a self with
          | Some x =>
              d_bind (ti_insert_child (f_impl (ch_field d)) x n) (fun '(taken, x') =>
              if taken then d_ok (true, set_field a x' self)
              else insert_child ds' (set_field a x' self) n)
          | None => d_panic
          end
      | CmBool =>
          if text_eqb (s_value (n_node_name (s_value n))) (ch_name d) then fun c =>
            let c' := check_flag_node n c in
            match get_field a self with
            | Some (VBool true) => (emit_error (duplicate_node d n) c', DOk (true, self))
            | Some (VBool false) => (c', DOk (true, set_field a (VBool true) self))
            | _ => (c', DPanic)
            end
          else insert_child ds' self n
      | CmNormal =>
          if text_eqb (s_value (n_node_name (s_value n))) (ch_name d) then
            d_bind (match get_field a self with
                    | Some VNone => d_ok tt
                    | Some (VSome _) => d_emit (duplicate_node d n)
                    | _ => d_panic
                    end) (fun _ =>
            d_map (fun x => (true, set_field a (VSome x) self)) (child_fn d n))
          else insert_child ds' self n
      | CmMulti =>
          if text_eqb (s_value (n_node_name (s_value n))) (ch_name d) then d_panic
          else insert_child ds' self n
      end
  end.

(** node.rs:710-750 [insert_property]. *)
Fixpoint insert_property {Sp L} (ps : list (prop Sp L)) (self : list (access * dval L))
    (name : spanned text Sp) (v : value Sp) : dec Sp (bool * list (access * dval L)) :=
  match ps with
  | [] => d_ok (false, self)
  | p :: ps' =>
      let a := f_attr (pr_field p) in
      if pr_flatten p then
        match get_field a self with
        | Some x =>
            d_bind (ti_insert_property (f_impl (pr_field p)) x name v) (fun '(taken, x') =>
            if taken then d_ok (true, set_field a x' self)
            else insert_property ps' (set_field a x' self) name v)
        | None => d_panic
        end
      else if text_eqb (s_value name) (pr_name p) then
        d_map (fun x => (true, set_field a (if pr_option p then x else VSome x) self))
          (decode_value (pr_decode p) (pr_option p) (f_impl (pr_field p)) v)
      else insert_property ps' self name v
  end.

(** node.rs:15-19 [child_can_partial] and 75-84 [partial_compatible]. *)
Definition child_can_partial {Sp L} (d : child Sp L) : bool :=
  ch_option d || match ch_mode d with CmBool | CmFlatten => true | _ => false end.

Definition partial_compatible {Sp L} (s : struct Sp L) : bool :=
  is_nil (st_spans s) && is_nil (st_node_names s) && is_nil (st_type_names s)
  && negb (st_has_arguments s)
  && (forallb (fun p => pr_option p || pr_flatten p) (st_properties s)
      && negb (is_some (st_var_props s)))
  && (forallb child_can_partial (st_children s) && negb (is_some (st_var_children s))).

(** node.rs:58-73 and 193-208: the value of the struct.  The fields of a tuple are
    sorted by index, and the macro asserts that the indexes are [0..len]. *)
Fixpoint insert_sorted {A} (x : nat * A) (l : list (nat * A)) : list (nat * A) :=
  match l with
  | [] => [x]
  | y :: l' => if Nat.leb (fst x) (fst y) then x :: l else y :: insert_sorted x l'
  end.

Definition sort_by_index {A} (l : list (nat * A)) : list (nat * A) :=
  fold_right insert_sorted [] l.

Definition as_index {Sp L} (f : field Sp L) : nat :=
  match f_attr f with Indexed i => i | Named _ => 0 end.

Definition tuple_ok {Sp L} (s : struct Sp L) : bool :=
  let fs := sort_by_index (map (fun f => (as_index f, tt)) (all_fields s)) in
  if list_eq_dec Nat.eq_dec (map fst fs) (seq 0 (List.length fs)) then true else false.

Definition tuple_values {Sp L} (s : struct Sp L) (xs : list (dval L)) : list (dval L) :=
  map snd (sort_by_index (combine (map as_index (all_fields s)) xs)).

Definition struct_val {Sp L} (named : bool) (s : struct Sp L) (xs : list (dval L)) : dval L :=
  VStruct (st_ident s)
    (if named then combine (map f_attr (all_fields s)) xs
     else let ys := tuple_values s xs in combine (map Indexed (seq 0 (List.length ys))) ys).

(** node.rs:135-153: [Decode::decode_node]. *)
Definition struct_node {Sp L} (named : bool) (s : struct Sp L) : node_impl Sp (dval L) :=
  fun n =>
    d_bind (decode_specials s n) (fun ws =>
    d_bind (decode_args s n) (fun xs =>
    d_bind (decode_props s n) (fun ys =>
    d_bind (struct_children s (Some (s_span n)) (node_children (s_value n))) (fun zs =>
    d_ok (struct_val named s (ws ++ xs ++ ys ++ zs ++ assign_extra s)))))).

(** node.rs:114-133: [DecodeChildren::decode_children]. *)
Definition struct_document {Sp L} (named : bool) (s : struct Sp L) : children_impl Sp (dval L) :=
  fun ns =>
    d_bind (struct_children s None ns) (fun zs =>
    d_ok (struct_val named s (zs ++ assign_extra s))).

(** node.rs:85-113: [DecodePartial], on the fields of the struct. *)
Definition on_self {Sp L} (f : list (access * dval L) -> dec Sp (bool * list (access * dval L)))
    (self : dval L) : dec Sp (bool * dval L) :=
  match self with
  | VStruct id fs => d_map (fun '(b, fs') => (b, VStruct id fs')) (f fs)
  | _ => d_panic
  end.

(** node.rs:21-155 [emit_struct]; [None] is a failing assertion in the macro, or a
    compile error for an [unwrap]. *)
Definition emit_struct {Sp L} (named : bool) (s : struct Sp L) : option (derived Sp L) :=
  if (named || tuple_ok s) && unwraps_compile s then
    Some {|
      dr_node := struct_node named s;
      dr_children :=
        if negb (st_has_arguments s) && negb (st_has_properties s)
           && is_nil (st_spans s) && is_nil (st_node_names s) && is_nil (st_type_names s)
        then Some (struct_document named s) else None;
      dr_insert_child :=
        if partial_compatible s then
          Some (fun self n => on_self (fun fs => insert_child (st_children s) fs n) self)
        else None;
      dr_insert_property :=
        if partial_compatible s then
          Some (fun self name v =>
                  on_self (fun fs => insert_property (st_properties s) fs name v) self)
        else None
    |}
  else None.

(** node.rs:168-170 and variants.rs:105-107: whether the inner value is decoded. *)
Definition has_content {Sp} (n : node Sp) : bool :=
  negb (is_nil (n_arguments n)) || negb (is_nil (n_properties n)) || is_some (n_children n).

(** node.rs:156-181 [emit_new_type]. *)
Definition new_type_node {Sp L} (ident : text) (i : tyimpl Sp L) : node_impl Sp (dval L) :=
  fun n =>
    if has_content (s_value n) then
      d_map (fun x => VStruct ident [(Indexed 0, VSome x)]) (ti_node i n)
    else d_ok (VStruct ident [(Indexed 0, VNone)]).

(** node.rs:183-218 [decode_enum_item], for a tuple variant. *)
Definition decode_enum_item {Sp L} (enum_ident variant_ident : text) (s : struct Sp L)
  : node_impl Sp (dval L) :=
  fun n =>
    d_bind (decode_args s n) (fun xs =>
    d_bind (decode_props s n) (fun ys =>
    d_bind (struct_children s (Some (s_span n)) (node_children (s_value n))) (fun zs =>
    d_ok (VVariant enum_ident variant_ident (tuple_values s (xs ++ ys ++ zs ++ assign_extra s)))))).

(** variants.rs:65-136: the branch of a variant.  A unit variant does the same as
    [check_flag_node].  A variant with named fields makes the macro panic.  The code for
    a tuple variant with a [span], [node_name] or [type_name] field has an unbound
    variable, and rustc rejects it. *)
Definition no_specials {Sp L} (s : struct Sp L) : bool :=
  is_nil (st_spans s) && is_nil (st_node_names s) && is_nil (st_type_names s).

Definition variant_node {Sp L} (enum_ident : text) (v : variant Sp L)
  : option (node_impl Sp (dval L)) :=
  match va_kind v with
  | VkUnit => Some (fun n c => (check_flag_node n c, DOk (VVariant enum_ident (va_ident v) [])))
  | VkNested false i =>
      Some (fun n => d_map (fun x => VVariant enum_ident (va_ident v) [x]) (ti_node i n))
  | VkNested true i =>
      Some (fun n =>
        if has_content (s_value n) then
          d_map (fun x => VVariant enum_ident (va_ident v) [VSome x]) (ti_node i n)
        else d_ok (VVariant enum_ident (va_ident v) [VNone]))
  | VkTuple s =>
      if no_specials s && tuple_ok s && unwraps_compile s then
        Some (decode_enum_item enum_ident (va_ident v) s) else None
  | VkNamed _ => None
  end.

Fixpoint variant_branches {Sp L} (enum_ident : text) (vs : list (variant Sp L))
  : option (list (text * node_impl Sp (dval L))) :=
  match vs with
  | [] => Some []
  | v :: vs' =>
      match variant_node enum_ident v, variant_branches enum_ident vs' with
      | Some b, Some bs => Some ((va_name v, b) :: bs)
      | _, _ => None
      end
  end.

(** variants.rs:14-56 [emit_enum] and 58-159 [decode]. *)
Definition enum_node {Sp L} (branches : list (text * node_impl Sp (dval L)))
  : node_impl Sp (dval L) :=
  fun n =>
    match match_name (s_value (n_node_name (s_value n))) branches with
    | Some d => d n
    | None =>
        d_err (conversion (n_node_name (s_value n))
                 (SMsg (expected_names (map fst branches))))
    end.

(** derive/src/lib.rs:13-21 [emit_decoder]. *)
Definition emit_decoder {Sp L} (d : definition Sp L) : option (derived Sp L) :=
  match d with
  | DefStruct s | DefUnit s => emit_struct true s
  | DefTuple s => emit_struct false s
  | DefNewType ident _ i => Some (Derived (new_type_node ident i) None None None)
  | DefEnum ident vs =>
      match variant_branches ident vs with
      | Some bs => Some (Derived (enum_node bs) None None None)
      | None => None
      end
  end.

(** derive/src/lib.rs:23-34 [decode_derive]: what the derive gives for an item; [None]
    is a compile error. *)
Definition decode_derive {Sp L} (i : src_item Sp L) : option (derived Sp L) :=
  match definition_parse kebab i with
  | inl (d, []) => emit_decoder d
  | _ => None
  end.

End Kebab.
