(** When a derived decoder may report which error. *)

From Coq Require Import NArith List Bool String.
From Verif Require Import Chars Ast Errors Kdl Decode Containers DecodeSpec DeriveDef Derive DeriveSpec
  FieldSpec StructSpec UnwrapSpec.
Import ListNotations.

Section Truth.
Context {Sp L : Type} (kebab : text -> text).
Implicit Types (n : snode Sp) (e : derror Sp) (fs : list (src_field Sp L)).

(** A decoder returns the error, or puts it into the context, in some context. *)
Definition may_report {A} (m : dec Sp A) e : Prop :=
  exists c, snd (m c) = DErr e
    \/ exists es, c_errors (fst (m c)) = c_errors c ++ es /\ In e es.

Definition name_span n : Sp := s_span (n_node_name (s_value n)).

(** ** Special fields *)

Inductive special_error (spans names : list (field Sp L)) (types : list (field Sp L * bool)) n
  : derror Sp -> Prop :=
| SE_span f e :
    In f spans -> may_report (d_pure (ti_span (f_impl f) (s_span n))) e ->
    special_error spans names types n e
| SE_node_name f why :
    In f names -> ti_from_str (f_impl f) (name_of n) = inr why ->
    special_error spans names types n (DConversion (name_span n) why)
| SE_type_name f o ty why :
    In (f, o) types -> n_type_name (s_value n) = Some ty ->
    ti_from_str (f_impl f) (typename_as_str (s_value ty)) = inr why ->
    special_error spans names types n (DConversion (s_span ty) why)
| SE_no_type_name f :
    In (f, false) types -> n_type_name (s_value n) = None ->
    special_error spans names types n (DMissing (name_span n) (str "type name required"))
| SE_unknown_type_name ty :
    types = [] -> n_type_name (s_value n) = Some ty ->
    special_error spans names types n
      (DUnexpected (s_span ty) (str "type name") (str "no type name expected for this node")).

(** ** Arguments *)

Definition argument_message (a : arg Sp L) : text :=
  match f_attr (ar_field a) with
  | Named x => str "additional argument `" ++ x ++ str "` is required"
  | Indexed _ => str "additional argument is required"
  end.

Inductive argument_error (args : list (arg Sp L)) (var : option (field Sp L * decode_mode)) n
  : derror Sp -> Prop :=
| AE_value i a v e :
    nth_error args i = Some a -> nth_error (n_arguments (s_value n)) i = Some v ->
    may_report (decodes_arg (a, v)) e -> argument_error args var n e
| AE_rest f m i v e :
    var = Some (f, m) -> List.length args <= i ->
    nth_error (n_arguments (s_value n)) i = Some v ->
    may_report (decode_value m false (f_impl f) v) e -> argument_error args var n e
| AE_missing i a :
    nth_error args i = Some a -> List.length (n_arguments (s_value n)) <= i ->
    ar_default a = None -> ar_kind_option a = false ->
    argument_error args var n (DMissing (name_span n) (argument_message a))
| AE_surplus v :
    var = None -> nth_error (n_arguments (s_value n)) (List.length args) = Some v ->
    argument_error args var n
      (DUnexpected (s_span (v_literal v)) (str "argument") (str "unexpected argument")).

(** ** Properties *)

Inductive property_error (props : list (prop Sp L)) (var : option (field Sp L * decode_mode)) n
  : derror Sp -> Prop :=
| PE_value p k v e :
    In p props -> In (k, v) (n_properties (s_value n)) -> s_value k = pr_name p ->
    may_report (decode_value (pr_decode p) (pr_option p) (f_impl (pr_field p)) v) e ->
    property_error props var n e
| PE_rest f m k v e :
    var = Some (f, m) -> In (k, v) (n_properties (s_value n)) ->
    ~ In (s_value k) (map pr_name props) ->
    may_report (decode_value m false (f_impl f) v) e -> property_error props var n e
| PE_key f m k v why :
    var = Some (f, m) -> In (k, v) (n_properties (s_value n)) ->
    ~ In (s_value k) (map pr_name props) -> ti_key_from_str (f_impl f) (s_value k) = inr why ->
    property_error props var n (DConversion (s_span k) why)
| PE_missing p :
    In p props -> ~ In (pr_name p) (names_of (n_properties (s_value n))) ->
    pr_default p = None -> pr_option p = false ->
    property_error props var n
      (DMissing (name_span n) (str "property `" ++ pr_name p ++ str "` is required"))
| PE_unknown k v :
    var = None -> In (k, v) (n_properties (s_value n)) ->
    ~ In (s_value k) (map pr_name props) ->
    property_error props var n
      (DUnexpected (s_span k) (str "property")
         (str "unexpected property `" ++ escape_default (s_value k) ++ str "`")).

(** ** Children *)

(** [place] is the span of the node that has the children, or nothing for a document;
    [dn] gives the decoder of a child field, [dv] is that of the [children] field. *)
Inductive child_error (dn : child Sp L -> node_impl Sp (dval L))
    (dv : option (node_impl Sp (dval L))) (ds : list (child Sp L)) (place : option Sp)
    (ns : list (snode Sp)) : derror Sp -> Prop :=
| CE_value d n e :
    In d ds -> In n ns -> ch_name d = name_of n -> ch_mode d <> CmBool ->
    may_report (dn d n) e -> child_error dn dv ds place ns e
| CE_rest decoder n e :
    dv = Some decoder -> In n ns -> ~ In (name_of n) (map ch_name ds) ->
    may_report (decoder n) e -> child_error dn dv ds place ns e
| CE_missing d :
    In d ds -> ch_mode d = CmNormal -> ~ In (ch_name d) (map name_of ns) ->
    ch_default d = None -> ch_option d = false ->
    child_error dn dv ds place ns
      (let m := str "child node `" ++ ch_name d ++ str "` is required" in
       match place with Some sp => DMissing sp m | None => DMissingNode m end)
| CE_duplicate d before n after :
    In d ds -> ns = before ++ n :: after -> ch_name d = name_of n ->
    ch_mode d = CmNormal \/ ch_mode d = CmBool ->
    In (name_of n) (map name_of before) -> child_error dn dv ds place ns (duplicate_error n)
| CE_flag d n e :
    In d ds -> In n ns -> ch_name d = name_of n -> ch_mode d = CmBool ->
    In e (flag_errors (s_value n)) -> child_error dn dv ds place ns e
| CE_unknown n :
    dv = None -> In n ns -> ~ In (name_of n) (map ch_name ds) ->
    child_error dn dv ds place ns (unknown_error n).

(** ** Structs *)

Definition children_error fs (place : option Sp) (ns : list (snode Sp)) : derror Sp -> Prop :=
  child_error (child_fn kebab) (rest_decoder kebab fs) (the_children kebab fs) place ns.

Definition struct_error fs n e : Prop :=
  special_error (flat_map spans_of (numbered fs)) (flat_map node_names_of (numbered fs))
    (flat_map type_names_of (numbered fs)) n e
  \/ argument_error (the_arguments fs) (the_var_args fs) n e
  \/ property_error (the_properties kebab fs) (the_var_props fs) n e
  \/ children_error fs (Some (s_span n)) (node_children (s_value n)) e.

End Truth.

(** ** What is unwrapped *)

Section Unwrap.
Context {Sp L : Type} (kebab : text -> text) (f : field Sp L) (mode : field_mode)
  (parse : option decode_mode) (inner : option (field_attrs L)) (default : option (dval L)).

(** The fields that the inside of [unwrap(...)] stands for: one, of the name of the
    field. *)
Definition inner_field : field Sp L := Field (Named (tmp_name (f_attr f))) (f_impl f).

Definition inner_arguments : list (arg Sp L) :=
  match mode with
  | FmArgument => [Arg inner_field false (parse_mode parse) default false]
  | _ => []
  end.

Definition inner_var_args : option (field Sp L * decode_mode) :=
  match mode with FmArguments => Some (inner_field, parse_mode parse) | _ => None end.

Definition inner_properties : list (prop Sp L) :=
  match mode with
  | FmProperty name =>
      [Prop_ inner_field
         (match name with Some t => t | None => kebab (tmp_name (f_attr f)) end) false
         (parse_mode parse) false default]
  | _ => []
  end.

Definition inner_var_props : option (field Sp L * decode_mode) :=
  match mode with FmProperties => Some (inner_field, parse_mode parse) | _ => None end.

Definition inner_children : list (child Sp L) :=
  match mode with
  | FmChild =>
      [Child inner_field (kebab (tmp_name (f_attr f))) false CmNormal inner default]
  | FmChildren (Some name) => [Child inner_field name false CmMulti inner default]
  | _ => []
  end.

Definition inner_decoder : option (node_impl Sp (dval L)) :=
  match mode with FmChildren None => Some (node_fn kebab f inner) | _ => None end.

Definition unwrap_error (n : snode Sp) (e : derror Sp) : Prop :=
  argument_error inner_arguments inner_var_args n e
  \/ property_error inner_properties inner_var_props n e
  \/ child_error (fun _ => node_fn kebab f inner) inner_decoder inner_children
       (Some (s_span n)) (node_children (s_value n)) e.

End Unwrap.
