(** What a derived decoder should do, stated without its loops and variables. *)

From Coq Require Import NArith List Bool String.
From Verif Require Import Chars Ast Errors Chumsky Kdl Decode Scalar DecodeSpec DeriveDef Derive.
Import ListNotations.

(** The context with more errors. *)
Definition with_errors {Sp} (c : context Sp) (es : list (derror Sp)) : context Sp :=
  Context (c_errors c ++ es) (c_ext c).

(** Each element is dealt with once, in order, in the context that the ones before it
    left.  How an element is dealt with may depend on the ones before it. *)
Inductive in_turn {Sp X Y} (R : list X -> X -> context Sp -> Y -> context Sp -> Prop)
  : list X -> list X -> context Sp -> list Y -> context Sp -> Prop :=
| IT_nil before c : in_turn R before [] c [] c
| IT_cons before x xs c c1 c2 y ys :
    R before x c y c1 -> in_turn R (before ++ [x]) xs c1 ys c2 ->
    in_turn R before (x :: xs) c (y :: ys) c2.

(** A decoder gives a value. *)
Definition gives {Sp X Y} (f : X -> dec Sp Y) (_ : list X) (x : X) (c : context Sp) (y : Y)
    (c' : context Sp) : Prop := f x c = (c', DOk y).

(** ** Arguments *)

(** The decoder of the argument that belongs to an argument field. *)
Definition decodes_arg {Sp L} (av : arg Sp L * value Sp) : dec Sp (dval L) :=
  decode_value (ar_decode (fst av)) (ar_option (fst av)) (f_impl (ar_field (fst av))) (snd av).

(** What a field holds if its element is absent: the default, or [None]; a field that
    has neither is required. *)
Inductive absent {L} (default : option (dval L)) (optional : bool) : dval L -> Prop :=
| Ab_default d : default = Some d -> absent default optional d
| Ab_none : default = None -> optional = true -> absent default optional VNone.

(** Argument [i] goes to field [i]; the fields that are left have no argument; the
    arguments that are left go to the [arguments] field, and without one there are
    none. *)
Definition args_right {Sp L} (fields : list (arg Sp L))
    (var : option (field Sp L * decode_mode)) (given : list (value Sp)) (c : context Sp)
    (out : list (dval L)) (c' : context Sp) : Prop :=
  exists xs ys c1,
    in_turn (gives decodes_arg) [] (combine fields given) c xs c1
    /\ Forall2 (fun a y => absent (ar_default a) (ar_kind_option a) y)
         (skipn (List.length given) fields) ys
    /\ match var with
       | Some (f, m) =>
           exists zs,
             in_turn (gives (decode_value m false (f_impl f))) []
               (skipn (List.length fields) given) c1 zs c'
             /\ out = xs ++ ys ++ [VList zs]
       | None => List.length given <= List.length fields /\ c' = c1 /\ out = xs ++ ys
       end.

(** ** Properties *)

Inductive to {L} :=
| To_field (x : dval L)
| To_rest (k x : dval L).
Arguments to : clear implicits.

Definition names_of {Sp V} (kvs : list (spanned text Sp * V)) : list text :=
  map (fun kv => s_value (fst kv)) kvs.

(** A property goes to the field of its name, or else to the [properties] field. *)
Inductive prop_taken {Sp L} (ps : list (prop Sp L)) (var : option (field Sp L * decode_mode))
    (before : list (spanned text Sp * value Sp))
  : spanned text Sp * value Sp -> context Sp -> to L -> context Sp -> Prop :=
| PT_field k v p c x c' :
    In p ps -> pr_name p = s_value k ->
    decode_value (pr_decode p) (pr_option p) (f_impl (pr_field p)) v c = (c', DOk x) ->
    prop_taken ps var before (k, v) c (To_field x) c'
| PT_rest k v f m c kk x c' :
    ~ In (s_value k) (map pr_name ps) -> var = Some (f, m) ->
    ti_key_from_str (f_impl f) (s_value k) = inl kk ->
    decode_value m false (f_impl f) v c = (c', DOk x) ->
    prop_taken ps var before (k, v) c (To_rest kk x) c'.

(** The pairs of the [properties] field, in the order of the properties. *)
Definition rests {L} (ts : list (to L)) : list (dval L * dval L) :=
  flat_map (fun t => match t with To_rest k x => [(k, x)] | To_field _ => [] end) ts.

(** What the field of a property holds. *)
Inductive prop_holds {Sp L} (kvs : list (spanned text Sp * value Sp)) (ts : list (to L))
    (p : prop Sp L) : dval L -> Prop :=
| PH_value i kv x :
    nth_error kvs i = Some kv -> s_value (fst kv) = pr_name p ->
    nth_error ts i = Some (To_field x) -> prop_holds kvs ts p x
| PH_absent x :
    ~ In (pr_name p) (names_of kvs) -> absent (pr_default p) (pr_option p) x ->
    prop_holds kvs ts p x.

Definition props_right {Sp L} (ps : list (prop Sp L)) (var : option (field Sp L * decode_mode))
    (kvs : list (spanned text Sp * value Sp)) (c : context Sp)
    (out : list (dval L)) (c' : context Sp) : Prop :=
  exists ts xs,
    in_turn (prop_taken ps var) [] kvs c ts c'
    /\ Forall2 (prop_holds kvs ts) ps xs
    /\ out = xs ++ match var with Some _ => [VPairs (rests ts)] | None => [] end.

(** Properties that have different names and are not flattened. *)
Definition plain_props {Sp L} (ps : list (prop Sp L)) : Prop :=
  NoDup (map pr_name ps) /\ Forall (fun p => pr_flatten p = false) ps.

(** ** Children *)

Inductive became {L} :=
| Value_for (x : dval L)
| A_flag
| In_rest (x : dval L)
| Unknown.
Arguments became : clear implicits.

Definition name_of {Sp} (n : snode Sp) : text := s_value (n_node_name (s_value n)).

Definition duplicate_error {Sp} (n : snode Sp) : derror Sp :=
  DUnexpected (s_span (n_node_name (s_value n))) (str "node")
    (str "duplicate node `" ++ escape_default (name_of n) ++ str "`, single node expected").

Definition unknown_error {Sp} (n : snode Sp) : derror Sp :=
  DUnexpected (s_span n) (str "node")
    (str "unexpected node `" ++ escape_default (name_of n) ++ str "`").

(** A child goes to the field of its name.  A second node for a single field is not
    taken at all; a flag node must be empty, and a second one is reported; a node that
    has no field goes to the [children] field, and without one it is reported. *)
Inductive child_taken {Sp L} (dn : child Sp L -> node_impl Sp (dval L))
    (dv : option (node_impl Sp (dval L))) (ds : list (child Sp L)) (before : list (snode Sp))
  : snode Sp -> context Sp -> became L -> context Sp -> Prop :=
| CT_single n d c x c' :
    In d ds -> ch_name d = name_of n -> ch_mode d = CmNormal ->
    ~ In (name_of n) (map name_of before) ->
    dn d n c = (c', DOk x) -> child_taken dn dv ds before n c (Value_for x) c'
| CT_multi n d c x c' :
    In d ds -> ch_name d = name_of n -> ch_mode d = CmMulti ->
    dn d n c = (c', DOk x) -> child_taken dn dv ds before n c (Value_for x) c'
| CT_flag n d c :
    In d ds -> ch_name d = name_of n -> ch_mode d = CmBool ->
    ~ In (name_of n) (map name_of before) ->
    child_taken dn dv ds before n c A_flag (with_errors c (flag_errors (s_value n)))
| CT_flag_again n d c :
    In d ds -> ch_name d = name_of n -> ch_mode d = CmBool ->
    In (name_of n) (map name_of before) ->
    child_taken dn dv ds before n c A_flag
      (with_errors c (flag_errors (s_value n) ++ [duplicate_error n]))
| CT_rest n d c x c' :
    ~ In (name_of n) (map ch_name ds) -> dv = Some d -> d n c = (c', DOk x) ->
    child_taken dn dv ds before n c (In_rest x) c'
| CT_unknown n c :
    ~ In (name_of n) (map ch_name ds) -> dv = None ->
    child_taken dn dv ds before n c Unknown (with_errors c [unknown_error n]).

(** The values of the children of a name, in order. *)
Fixpoint values_for {Sp L} (name : text) (ns : list (snode Sp)) (bs : list (became L))
  : list (dval L) :=
  match ns, bs with
  | n :: ns', Value_for x :: bs' =>
      if text_eqb (name_of n) name then x :: values_for name ns' bs'
      else values_for name ns' bs'
  | _ :: ns', _ :: bs' => values_for name ns' bs'
  | _, _ => []
  end.

Definition rest_values {L} (bs : list (became L)) : list (dval L) :=
  flat_map (fun b => match b with In_rest x => [x] | _ => [] end) bs.

(** What the field of a child holds, given the values of the children of its name. *)
Inductive child_holds {Sp L} (ns : list (snode Sp)) (d : child Sp L) (xs : list (dval L))
  : dval L -> Prop :=
| CH_flag b : ch_mode d = CmBool -> (b = true <-> In (ch_name d) (map name_of ns)) ->
    child_holds ns d xs (VBool b)
| CH_single x : ch_mode d = CmNormal -> xs = [x] ->
    child_holds ns d xs
      (if ch_option d && match ch_default d with None => true | _ => false end
       then VSome x else x)
| CH_single_absent y : ch_mode d = CmNormal -> xs = [] ->
    absent (ch_default d) (ch_option d) y -> child_holds ns d xs y
| CH_multi : ch_mode d = CmMulti -> xs <> [] ->
    child_holds ns d xs (if ch_option d then VSome (VList xs) else VList xs)
| CH_multi_absent y : ch_mode d = CmMulti -> xs = [] ->
    absent (ch_default d) (ch_option d) y -> child_holds ns d xs y
| CH_multi_empty : ch_mode d = CmMulti -> xs = [] -> ch_default d = None ->
    ch_option d = false -> child_holds ns d xs (VList []).

Definition children_right {Sp L} (dn : child Sp L -> node_impl Sp (dval L))
    (dv : option (node_impl Sp (dval L))) (ds : list (child Sp L)) (ns : list (snode Sp))
    (c : context Sp) (out : list (dval L)) (c' : context Sp) : Prop :=
  exists bs xs,
    in_turn (child_taken dn dv ds) [] ns c bs c'
    /\ Forall2 (fun d x => child_holds ns d (values_for (ch_name d) ns bs) x) ds xs
    /\ out = xs ++ match dv with Some _ => [VList (rest_values bs)] | None => [] end.

Definition plain_children {Sp L} (ds : list (child Sp L)) : Prop :=
  NoDup (map ch_name ds) /\ Forall (fun d => ch_mode d <> CmFlatten) ds.

(** ** Special fields *)

(** What a [type_name] field holds. *)
Inductive type_holds {Sp L} (n : snode Sp) : field Sp L * bool -> dval L -> Prop :=
| TH_given f o ty x :
    n_type_name (s_value n) = Some ty ->
    ti_from_str (f_impl f) (typename_as_str (s_value ty)) = inl x ->
    type_holds n (f, o) (if o : bool then VSome x else x)
| TH_absent f : n_type_name (s_value n) = None -> type_holds n (f, true) VNone.

Definition special_right {Sp L} (spans names : list (field Sp L)) (types : list (field Sp L * bool))
    (n : snode Sp) (c : context Sp)
    (out : list (dval L)) (c' : context Sp) : Prop :=
  exists xs ys zs,
    in_turn (fun _ (f : field Sp L) c x c' => ti_span (f_impl f) (s_span n) c = (c', x))
      [] spans c xs c'
    /\ Forall2 (fun (f : field Sp L) y => ti_from_str (f_impl f) (name_of n) = inl y)
         names ys
    /\ Forall2 (type_holds n) types zs
    /\ out = xs ++ ys ++ zs.

(** A type name that no field asks for. *)
Definition type_name_errors {Sp L} (types : list (field Sp L * bool)) (n : node Sp)
  : list (derror Sp) :=
  match types, n_type_name n with
  | [], Some ty =>
      [DUnexpected (s_span ty) (str "type name") (str "no type name expected for this node")]
  | _, _ => []
  end.
