(** C74: the order of children of different fields does not matter. *)

From Coq Require Import NArith List Bool String Permutation.
From Verif Require Import Chars Ast Errors Chumsky Spans Kdl Decode Scalar Containers DecodeSpec
  DeriveDef Derive DeriveSpec FieldSpec StructSpec DeriveConformance HandSpec DeriveSample SteadySpec SteadyProps SteadyLibrary
  FlattenSample SwapProps SwapFlat SwapSample.
Import ListNotations.
Local Open Scope string_scope.
Local Open Scope list_scope.

(** The children of a node change places: the same value, and the same errors in some
    order. *)
Theorem C74_node : forall Sp L kebab named ident cont (fs : list (src_field Sp L)) d,
  derives_struct kebab named ident cont fs d ->
  Forall (fun f => steady_type (sf_impl f)) fs ->
  flat_commute kebab fs -> forall names, Forall (has_field kebab fs) names ->
  forall n ns' c c' v,
  reordered names (node_children (s_value n)) ns' ->
  dr_node d n c = (c', DOk v) ->
  exists c'', dr_node d (with_children n ns') c = (c'', DOk v)
    /\ Permutation (c_errors c') (c_errors c'') /\ c_ext c'' = c_ext c'.
Proof. exact @swap_node. Qed.
Print Assumptions C74_node.

(** The nodes of a document do. *)
Theorem C74_document : forall Sp L kebab named ident cont (fs : list (src_field Sp L)) d,
  derives_struct kebab named ident cont fs d ->
  Forall (fun f => steady_type (sf_impl f)) fs ->
  flat_commute kebab fs -> forall names, Forall (has_field kebab fs) names ->
  forall f ns ns' c c' v, dr_children d = Some f ->
  reordered names ns ns' -> f ns c = (c', DOk v) ->
  exists c'', f ns' c = (c'', DOk v)
    /\ Permutation (c_errors c') (c_errors c'') /\ c_ext c'' = c_ext c'.
Proof. exact @swap_document. Qed.
Print Assumptions C74_document.

(** So [parse] accepts the one if and only if it accepts the other, with the same value. *)
Theorem C74_parse : forall Sp L kebab named ident cont (fs : list (src_field Sp L)) d,
  derives_struct kebab named ident cont fs d ->
  Forall (fun f => steady_type (sf_impl f)) fs ->
  flat_commute kebab fs -> forall names, Forall (has_field kebab fs) names ->
  forall f ns ns' v, dr_children d = Some f ->
  reordered names ns ns' ->
  parse (Parsed ns) f = Value_of v <-> parse (Parsed ns') f = Value_of v.
Proof. exact @swap_parse. Qed.
Print Assumptions C74_parse.

(** What is required of flattened types holds for derived structs that can be flattened. *)
Theorem C74_flattened : forall Sp L kebab named ident cont (fs : list (src_field Sp L)) d,
  derives_struct kebab named ident cont fs d ->
  Forall (fun f => steady_type (sf_impl f)) fs -> flat_commute kebab fs ->
  forall f, dr_insert_child d = Some f ->
  commuting f /\ forall name, has_field kebab fs name -> takes f name.
Proof. exact @derived_commutes. Qed.
Print Assumptions C74_flattened.

(** What is required of the types of the fields holds for the scalars of the crate and
    for all that is derived from types for which it holds. *)
Theorem C74_derived : forall Sp L kebab (i : src_item Sp L) d,
  Forall steady_type (types_in i) -> decode_derive kebab i = Some d -> steady_derived d.
Proof. exact @derive_steady. Qed.
Print Assumptions C74_derived.

Theorem C74_scalars : forall Sp,
  (forall t, steady_scalar (Sp := Sp) (string_impl t))
  /\ steady_scalar (Sp := Sp) bool_impl
  /\ (forall t, steady_scalar (Sp := Sp) (int_impl t))
  /\ (forall F t (from_str : text -> option F) zero,
        steady_scalar (Sp := Sp) (float_impl t from_str zero))
  /\ (forall A name (vs : list (text * A)), steady_scalar (Sp := Sp) (scalar_enum_impl name vs))
  /\ steady_scalar (Sp := Sp) literal_impl
  /\ (forall A (i : scalar_impl Sp A), steady_scalar i -> steady_scalar (option_impl i))
  /\ (forall A B (f : A -> B) (i : scalar_impl Sp A),
        steady_scalar i -> steady_scalar (wrapped_impl f i)).
Proof. exact library_steady. Qed.
Print Assumptions C74_scalars.

Example C74_node_example :
  derives_struct kebab true (str "Job") [] job_fields job
  /\ Forall (fun f => steady_type (sf_impl f)) job_fields
  /\ flat_commute kebab job_fields
  /\ Forall (has_field kebab job_fields) (map ch_name (the_children kebab job_fields))
  /\ reordered (map ch_name (the_children kebab job_fields)) (node_children (s_value job_node)) job_moved
  /\ dr_node job job_node context_new = (context_new, DOk job_value)
  /\ dr_node job (with_children job_node job_moved) context_new = (context_new, DOk job_value).
Proof.
  split; [exact (conj job_derived (conj job_proper job_newtype))|].
  split; [exact job_steady|]. split; [exact (plain_commute _ (proj2 job_plain))|].
  split; [exact (plain_field _ (proj2 job_plain))|]. split; [exact job_reordered|].
  split; [exact job_decoded|exact job_moved_same].
Qed.

Example C74_document_example :
  derives_struct kebab true (str "Doc") [] doc_fields doc
  /\ Forall (fun f => steady_type (sf_impl f)) doc_fields
  /\ flat_commute kebab doc_fields
  /\ Forall (has_field kebab doc_fields) (map ch_name (the_children kebab doc_fields))
  /\ reordered (map ch_name (the_children kebab doc_fields)) some_nodes other_nodes
  /\ (exists f c v, dr_children doc = Some f
      /\ f some_nodes context_new = (c, DOk v) /\ c_errors c <> [])
  /\ reordered (map ch_name (the_children kebab doc_fields)) fine_nodes moved_nodes
  /\ fine_nodes <> moved_nodes
  /\ exists f v, dr_children doc = Some f /\ parse (Parsed fine_nodes) f = Value_of v.
Proof.
  split; [exact (conj doc_derived (conj doc_proper doc_newtype))|].
  split; [exact doc_steady|]. split; [exact (plain_commute _ (proj2 doc_plain))|].
  split; [exact (plain_field _ (proj2 doc_plain))|]. split; [exact nodes_reordered|].
  split; [exact nodes_decoded|]. split; [exact fine_reordered|].
  split; [exact moved_not_same|exact fine_parsed].
Qed.

(** With a flattened struct, whose fields are [verbose], [target] and [level]. *)
Example C74_flattened_example :
  derives_struct kebab true (str "Run") [] run_fields run_flat
  /\ Forall (fun f => steady_type (sf_impl f)) run_fields
  /\ flat_commute kebab run_fields /\ Forall (has_field kebab run_fields) run_names
  /\ reordered run_names (node_children (s_value run_node)) run_moved
  /\ (exists v, dr_node run_flat run_node context_new = (context_new, DOk v)
      /\ dr_node run_flat (with_children run_node run_moved) context_new = (context_new, DOk v))
  /\ Forall (fun f => steady_type (sf_impl f)) opts_fields
  /\ Forall (has_field kebab opts_fields) (map str ["verbose"; "target"; "level"])
  /\ exists f, dr_insert_child (struct_of "Opts" opts_fields) = Some f.
Proof.
  split; [exact run_flat_derives|]. split; [exact run_steady|]. split; [exact run_commute|].
  split; [exact run_claimed|]. split; [exact run_reordered|]. split; [exact run_decoded|].
  split; [exact opts_steady|]. split; [exact opts_names|].
  destruct opts_swap as (f & E & _). exists f. exact E.
Qed.

(** Without a value the errors can be others: only the first wrong node is reported. *)
Example C74_errors_example : exists f e e', dr_children doc = Some f
  /\ reordered (map ch_name (the_children kebab doc_fields)) wrong_nodes (rev wrong_nodes)
  /\ parse (Parsed wrong_nodes) f = Decode_errors [e]
  /\ parse (Parsed (rev wrong_nodes)) f = Decode_errors [e'] /\ e <> e'.
Proof. exact wrong_order. Qed.
