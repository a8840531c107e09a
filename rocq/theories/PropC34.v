(** C34: properties of derived structs.  The properties of a node are a [BTreeMap]:
    they are [increasing], which the parser guarantees (C08). *)

From Coq Require Import NArith ZArith List Bool String Lia.
From Verif Require Import Chars Ast Errors Chumsky Spans Grammar Conformance Kdl Decode Scalar Containers
  DecodeSpec DeriveDef Derive DeriveSpec FieldSpec StructSpec HandSpec
  StructProps MissProps DeriveConformance DeriveSample.
Import ListNotations.
Local Open Scope list_scope.

Theorem C34_properties : forall Sp L kebab named ident cont (fs : list (src_field Sp L)) d,
  derives_struct kebab named ident cont fs d ->
  forall n c v c', plain_props (the_properties kebab fs) ->
  increasing (n_properties (s_value n)) -> dr_node d n c = (c', DOk v) ->
  forall p, In p (the_properties kebab fs) ->
  exists x, holds v (pr_field p) x /\
  ((exists k a c1 c2, In (k, a) (n_properties (s_value n)) /\ s_value k = pr_name p
      /\ decode_value (pr_decode p) (pr_option p) (f_impl (pr_field p)) a c1 = (c2, DOk x))
   \/ (~ In (pr_name p) (names_of (n_properties (s_value n)))
       /\ absent (pr_default p) (pr_option p) x)).
Proof. exact @ds_prop. Qed.
Print Assumptions C34_properties.

(** The others go to the [properties] field, in the order of their names. *)
Theorem C34_rest : forall Sp L kebab named ident cont (fs : list (src_field Sp L)) d,
  derives_struct kebab named ident cont fs d ->
  forall n c v c' f m, plain_props (the_properties kebab fs) ->
  increasing (n_properties (s_value n)) ->
  dr_node d n c = (c', DOk v) -> the_var_props fs = Some (f, m) ->
  exists kxs, holds v f (VPairs kxs)
    /\ Forall2 (fun kv kx => ti_key_from_str (f_impl f) (s_value (fst kv)) = inl (fst kx)
           /\ exists c1 c2, decode_value m false (f_impl f) (snd kv) c1 = (c2, DOk (snd kx)))
         (filter (not_field kebab fs) (n_properties (s_value n))) kxs.
Proof. exact @ds_props_rest. Qed.
Print Assumptions C34_rest.

Theorem C34_missing : forall Sp L kebab named ident cont (fs : list (src_field Sp L)) d,
  derives_struct kebab named ident cont fs d ->
  forall n p, plain_props (the_properties kebab fs) ->
  increasing (n_properties (s_value n)) -> In p (the_properties kebab fs) ->
  pr_default p = None -> pr_option p = false ->
  ~ In (pr_name p) (names_of (n_properties (s_value n))) ->
  forall c c' v, dr_node d n c <> (c', DOk v).
Proof. exact @ds_prop_missing. Qed.
Print Assumptions C34_missing.

Theorem C34_unknown : forall Sp L kebab named ident cont (fs : list (src_field Sp L)) d,
  derives_struct kebab named ident cont fs d ->
  forall n k a, plain_props (the_properties kebab fs) ->
  increasing (n_properties (s_value n)) -> the_var_props fs = None ->
  In (k, a) (n_properties (s_value n)) ->
  ~ In (s_value k) (map pr_name (the_properties kebab fs)) ->
  forall c c' v, dr_node d n c <> (c', DOk v).
Proof. exact @ds_prop_unknown. Qed.
Print Assumptions C34_unknown.

(** The node has [label], [y] and [z]; there are fields for [label], [mode] and [note],
    and a [properties] field. *)
Example C34_example :
  derives_struct kebab true (str "Job") [] job_fields job
  /\ plain_props (the_properties kebab job_fields)
  /\ increasing (n_properties (s_value job_node))
  /\ dr_node job job_node context_new = (context_new, DOk job_value)
  /\ map pr_name (the_properties kebab job_fields) = [str "label"; str "mode"; str "note"]
  /\ names_of (filter (not_field kebab job_fields) (n_properties (s_value job_node)))
     = [str "y"; str "z"]
  /\ option_map snd (the_var_props job_fields) = Some DmNormal.
Proof.
  split; [exact (conj job_derived (conj job_proper job_newtype))|].
  split; [exact (proj1 job_plain)|]. split; [exact job_increasing|].
  split; [exact job_decoded|]. repeat split; vm_compute; reflexivity.
Qed.
