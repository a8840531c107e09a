(** Documents and nodes whose children change places. *)

From Coq Require Import NArith ZArith List Bool String.
From Verif Require Import Chars Ast Errors Chumsky Spans Grammar Conformance Kdl.
From Verif Require Import Decode Scalar Containers DecodeSpec DeriveDef Derive DeriveSpec FieldSpec
  StructSpec DeriveConformance HandSpec DeriveSample UnwrapSample FlattenSpec FlattenSample
  SteadySpec SteadyProps SteadyLibrary SwapProps SwapFlat.
Import ListNotations.
Local Open Scope string_scope.
Local Open Scope list_scope.

Lemma ty_scalar_steady {A} (i : scalar_impl span A) f dflt :
  steady_scalar i -> steady_type (ty_scalar i f dflt).
Proof.
  intros W. split; intros; try apply st_panic.
  - apply st_map, (ss_decode _ W).
  - exists []. eexists. intros c. rewrite added_nil. reflexivity.
Qed.

Lemma ty_from_str_steady p : steady_type (ty_from_str p).
Proof.
  split; intros; try apply st_panic. exists []. eexists. intros c. rewrite added_nil. reflexivity.
Qed.

Lemma ty_span_steady : steady_type ty_span.
Proof.
  split; intros; try apply st_panic. exists []. eexists. intros c. rewrite added_nil. reflexivity.
Qed.

Lemma ty_arg_steady : steady_type ty_arg.
Proof.
  unfold ty_arg, ty_derived. destruct (decode_derive kebab arg1_item) as [d|] eqn:E.
  - assert (W : steady_derived d).
    { apply (derive_steady kebab arg1_item d); [|exact E].
      constructor; [apply ty_scalar_steady, string_steady|constructor]. }
    split; intros; try apply st_panic.
    + apply (syd_node _ W).
    + exists []. eexists. intros c. rewrite added_nil. reflexivity.
    + cbn [ti_insert_child]. destruct (dr_insert_child d) eqn:E1; [|apply st_panic].
      exact (syd_insert_child _ W _ E1 _ _).
    + cbn [ti_insert_property]. destruct (dr_insert_property d) eqn:E1; [|apply st_panic].
      exact (syd_insert_property _ W _ E1 _ _ _).
  - split; intros; try apply st_panic. exists []. eexists. intros c. rewrite added_nil. reflexivity.
Qed.

Lemma doc_steady : Forall (fun f => steady_type (sf_impl f)) doc_fields.
Proof.
  unfold doc_fields, F_. repeat (constructor; [cbn [sf_impl];
    first [apply ty_arg_steady|apply ty_scalar_steady, bool_steady]|]). constructor.
Qed.

Lemma job_steady : Forall (fun f => steady_type (sf_impl f)) job_fields.
Proof.
  pose proof ty_arg_steady. pose proof ty_span_steady. pose proof ty_from_str_steady.
  pose proof (ty_scalar_steady _ v_text (v_text []) (string_steady TString)).
  unfold job_fields, F_. repeat (constructor; [cbn [sf_impl];
    first [now auto|apply ty_scalar_steady, option_steady, string_steady
          |apply ty_scalar_steady, string_steady|apply ty_scalar_steady, bool_steady]|]). constructor.
Qed.

(** The children of a document, and the same in another order. *)
Definition some_nodes : list (snode span) := nodes_of (q "main 'm'; point '1'; what 'q'; point '2'; flag").
Definition other_nodes : list (snode span) :=
  match some_nodes with
  | [a; b; c; e; f] => [f; c; b; a; e]
  | _ => []
  end.

Lemma plain_commute fs : plain_children (the_children kebab fs) -> flat_commute (Sp := span) (L := leaf) kebab fs.
Proof. intros [_ H]. revert H. apply Forall_impl. intros h N M. congruence. Qed.

Lemma plain_field fs : plain_children (the_children kebab fs) ->
  Forall (has_field (Sp := span) (L := leaf) kebab fs) (map ch_name (the_children kebab fs)).
Proof.
  intros [_ H]. unfold has_field. apply Forall_map, Forall_forall. intros h I. apply Exists_exists.
  exists h. split; [exact I|]. rewrite Forall_forall in H. specialize (H h I). unfold claims.
  destruct (ch_mode h); congruence.
Qed.

Lemma reordered_checked names (ns ns' : list (snode span)) :
  Forall (fun name => named_nodes name ns = named_nodes name ns') names ->
  filter (fun n => negb (existsb (text_eqb (name_of n)) names)) ns
  = filter (fun n => negb (existsb (text_eqb (name_of n)) names)) ns' ->
  reordered names ns ns'.
Proof. intros H1 H2. rewrite Forall_forall in H1. split; auto. Qed.

Lemma nodes_reordered : reordered (map ch_name (the_children kebab doc_fields)) some_nodes other_nodes.
Proof. apply reordered_checked; [vm_compute; repeat constructor|vm_compute; reflexivity]. Qed.

(** With the unknown node there is an error, but a value. *)
Lemma nodes_decoded : exists f c v, dr_children doc = Some f
  /\ f some_nodes context_new = (c, DOk v) /\ c_errors c <> [].
Proof.
  assert (K : match dr_children doc with
              | Some f => match f some_nodes context_new with
                          | (c, DOk _) => match c_errors c with [] => False | _ => True end
                          | _ => False
                          end
              | None => False
              end) by (vm_compute; exact I).
  destruct (dr_children doc) as [f|]; [|contradiction].
  destruct (f some_nodes context_new) as [c [v|e|]] eqn:E; try contradiction.
  exists f, c, v. split; [reflexivity|]. split; [exact E|]. intros Q. rewrite Q in K. exact K.
Qed.

(** Nodes without an error, and the same in another order. *)
Definition fine_nodes : list (snode span) := nodes_of (q "main 'm'; point '1'; point '2'; flag").
Definition moved_nodes : list (snode span) :=
  match fine_nodes with
  | [a; b; c; e] => [b; e; c; a]
  | _ => []
  end.

Lemma fine_reordered : reordered (map ch_name (the_children kebab doc_fields)) fine_nodes moved_nodes.
Proof. apply reordered_checked; [vm_compute; repeat constructor|vm_compute; reflexivity]. Qed.

Lemma moved_not_same : fine_nodes <> moved_nodes.
Proof. vm_compute. discriminate. Qed.

Lemma fine_parsed : exists f v, dr_children doc = Some f
  /\ parse (Parsed fine_nodes) f = Value_of v.
Proof.
  assert (K : match dr_children doc with
              | Some f => match parse (Parsed fine_nodes) f with
                          | Value_of _ => True
                          | _ => False
                          end
              | None => False
              end) by (vm_compute; exact I).
  destruct (dr_children doc) as [f|]; [|contradiction].
  destruct (parse (Parsed fine_nodes) f) as [v| | |] eqn:E; try contradiction.
  exists f, v. auto.
Qed.

(** The children of [job_node] in another order; [other] is for the field [nodes]. *)
Definition job_moved : list (snode span) :=
  match node_children (s_value job_node) with
  | [a; b; c; e; f] => [e; c; f; b; a]
  | _ => []
  end.

Lemma job_reordered : reordered (map ch_name (the_children kebab job_fields))
  (node_children (s_value job_node)) job_moved.
Proof. apply reordered_checked; [vm_compute; repeat constructor|vm_compute; reflexivity]. Qed.

Lemma job_moved_same : dr_node job (with_children job_node job_moved) context_new
  = (context_new, DOk job_value).
Proof. vm_compute. reflexivity. Qed.

(** Two wrong nodes: only the first is reported. *)
Definition wrong_nodes : list (snode span) := nodes_of (q "main; point").

Lemma wrong_order : exists f e e', dr_children doc = Some f
  /\ reordered (map ch_name (the_children kebab doc_fields)) wrong_nodes (rev wrong_nodes)
  /\ parse (Parsed wrong_nodes) f = Decode_errors [e]
  /\ parse (Parsed (rev wrong_nodes)) f = Decode_errors [e'] /\ e <> e'.
Proof.
  assert (R : reordered (map ch_name (the_children kebab doc_fields)) wrong_nodes (rev wrong_nodes))
    by (apply reordered_checked; [vm_compute; repeat constructor|vm_compute; reflexivity]).
  assert (K : match dr_children doc with
              | Some f => match parse (Parsed wrong_nodes) f, parse (Parsed (rev wrong_nodes)) f with
                          | Decode_errors [e], Decode_errors [e'] => e <> e'
                          | _, _ => False
                          end
              | None => False
              end) by (vm_compute; discriminate).
  destruct (dr_children doc) as [f|]; [|contradiction].
  destruct (parse (Parsed wrong_nodes) f) as [| |[|e []]|] eqn:E; try contradiction.
  destruct (parse (Parsed (rev wrong_nodes)) f) as [| |[|e' []]|] eqn:E'; try contradiction.
  exists f, e, e'. repeat split; auto; apply R.
Qed.

(** ** A flattened struct *)

Lemma opts_steady : Forall (fun f => steady_type (sf_impl f)) opts_fields.
Proof.
  unfold opts_fields, F_. repeat (constructor; [cbn [sf_impl];
    first [apply ty_arg_steady|apply ty_scalar_steady, bool_steady
          |apply ty_scalar_steady, string_steady]|]). constructor.
Qed.

Lemma opts_plain : plain_children (the_children kebab opts_fields).
Proof. refine (proj2 (plain_checked _ _)). vm_compute. reflexivity. Qed.

Lemma opts_swap : exists f, dr_insert_child (struct_of "Opts" opts_fields) = Some f
  /\ commuting f /\ forall name, has_field kebab opts_fields name -> takes f name.
Proof.
  pose proof (derived_commutes kebab true (str "Opts") [] opts_fields _
    (struct_checked _ _ opts_checked) opts_steady (plain_commute _ opts_plain)) as H.
  assert (K : (if dr_insert_child (struct_of "Opts" opts_fields) then true else false) = true)
    by (vm_compute; reflexivity).
  destruct (dr_insert_child (struct_of "Opts" opts_fields)) as [f|]; [|discriminate].
  exists f. split; [reflexivity|]. now apply H.
Qed.

Definition run_fields : list (src_field span leaf) := run_before ++ opts_field :: run_after.

Lemma ty_struct_steady name fs : struct_check name fs = true ->
  Forall (fun g => steady_type (sf_impl g)) fs -> steady_type (ty_struct name fs).
Proof.
  intros H St. destruct (struct_checked name fs H) as (Hd & _).
  assert (W : steady_derived (struct_of name fs)).
  { apply (derive_steady kebab _ _) with (2 := Hd). cbn. rewrite Forall_map. exact St. }
  unfold ty_struct, ty_derived. split; intros; try apply st_panic.
  - apply (syd_node _ W).
  - exists []. eexists. intros c. rewrite added_nil. reflexivity.
  - cbn [ti_insert_child]. destruct (dr_insert_child _) eqn:E1; [|apply st_panic].
    exact (syd_insert_child _ W _ E1 _ _).
  - cbn [ti_insert_property]. destruct (dr_insert_property _) eqn:E1; [|apply st_panic].
    exact (syd_insert_property _ W _ E1 _ _ _).
Qed.

Lemma run_steady : Forall (fun f => steady_type (sf_impl f)) run_fields.
Proof.
  unfold run_fields, run_before, run_after, opts_field, F_. cbn [app].
  repeat (constructor; [cbn [sf_impl];
    first [apply ty_arg_steady|apply (ty_struct_steady _ _ opts_checked opts_steady)]|]). constructor.
Qed.

Lemma run_child h : In h (the_children kebab run_fields) -> ch_mode h = CmFlatten ->
  ti_insert_child (f_impl (ch_field h))
  = ti_insert_child (ty_struct "Opts" opts_fields).
Proof.
  unfold run_fields, run_before, run_after, opts_field, F_. cbn -[ty_struct]. intros H M.
  repeat (destruct H as [<-|H]; [first [discriminate M|reflexivity]|]). destruct H.
Qed.

Lemma opts_insert : commuting (ti_insert_child (ty_struct "Opts" opts_fields))
  /\ forall name, has_field kebab opts_fields name -> takes (ti_insert_child (ty_struct "Opts" opts_fields)) name.
Proof.
  destruct opts_swap as (f & E & C). unfold ty_struct, ty_derived. cbn [ti_insert_child]. rewrite E. exact C.
Qed.

Lemma run_commute : flat_commute kebab run_fields.
Proof. apply Forall_forall. intros h I M. rewrite (run_child h I M). exact (proj1 opts_insert). Qed.

(** The names of fields, those of the flattened struct among them. *)
Definition run_names : list text := map str ["main"; "verbose"; "target"; "level"; "point"].

Lemma opts_names : Forall (has_field kebab opts_fields) (map str ["verbose"; "target"; "level"]).
Proof.
  pose proof (plain_field _ opts_plain) as H.
  replace (map ch_name (the_children kebab opts_fields)) with (map str ["verbose"; "target"; "level"]) in H
    by (vm_compute; reflexivity).
  exact H.
Qed.

Lemma run_claimed : Forall (has_field kebab run_fields) run_names.
Proof.
  assert (O : forall name, In name (map str ["verbose"; "target"; "level"]) -> has_field kebab run_fields name).
  { intros name I. pose proof (proj1 (Forall_forall _ _) opts_names name I) as X.
    apply (proj2 opts_insert) in X. apply Exists_cons_tl, Exists_cons_hd. exact X. }
  unfold run_names. cbn [map].
  constructor; [apply Exists_cons_hd; reflexivity|].
  constructor; [apply O; cbn; auto|]. constructor; [apply O; cbn; auto|].
  constructor; [apply O; cbn; auto|].
  constructor; [apply Exists_cons_tl, Exists_cons_tl, Exists_cons_hd; reflexivity|constructor].
Qed.

Definition run_moved : list (snode span) := rev (node_children (s_value run_node)).

Lemma run_reordered : reordered run_names (node_children (s_value run_node)) run_moved.
Proof. apply reordered_checked; [vm_compute; repeat constructor|vm_compute; reflexivity]. Qed.

Lemma run_decoded : exists v, dr_node run_flat run_node context_new = (context_new, DOk v)
  /\ dr_node run_flat (with_children run_node run_moved) context_new = (context_new, DOk v).
Proof. eexists. split; vm_compute; reflexivity. Qed.
