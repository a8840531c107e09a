(** C56: a field without a default may be left out if and only if its type is written
    [Option<...>].  [option_written] (PartialSpec.v) is about how the type is written:
    the macro sees no more than that. *)

From Coq Require Import NArith ZArith List Bool String Lia.
From Verif Require Import Chars Ast Errors Chumsky Spans Grammar Conformance Kdl Decode Scalar Containers
  DecodeSpec DeriveDef Derive DeriveSpec FieldSpec StructSpec HandSpec PartialSpec PartialProps
  FlattenSpec DeriveConformance DeriveSample UnwrapSample FlattenSample PartialSample.
Import ListNotations.
Local Open Scope string_scope.
Local Open Scope list_scope.

(** [numbered fs]: the fields of the struct with their numbers. *)
Theorem C56_property : forall Sp L kebab named ident cont (fs : list (src_field Sp L)) d,
  derives_struct kebab named ident cont fs d -> forall x name n,
  In x (numbered fs) -> mode_of x = Some (FmProperty name) -> default_of x = None ->
  plain_props (the_properties kebab fs) -> increasing (n_properties (s_value n)) ->
  ~ In (key_of kebab x name) (names_of (n_properties (s_value n))) ->
  (option_written (sf_type (snd x)) ->
     forall c c' v, dr_node d n c = (c', DOk v) -> holds v (the_field x) VNone)
  /\ (~ option_written (sf_type (snd x)) -> forall c c' v, dr_node d n c <> (c', DOk v)).
Proof. exact @property_left_out. Qed.
Print Assumptions C56_property.

Theorem C56_argument : forall Sp L kebab named ident cont (fs : list (src_field Sp L)) d,
  derives_struct kebab named ident cont fs d -> forall i x n,
  nth_error (filter argument_field (numbered fs)) i = Some x -> default_of x = None ->
  List.length (n_arguments (s_value n)) <= i ->
  (option_written (sf_type (snd x)) ->
     forall c c' v, dr_node d n c = (c', DOk v) -> holds v (the_field x) VNone)
  /\ (~ option_written (sf_type (snd x)) -> forall c c' v, dr_node d n c <> (c', DOk v)).
Proof. exact @argument_left_out. Qed.
Print Assumptions C56_argument.

(** A [bool] child is a flag unless it is unwrapped. *)
Theorem C56_child : forall Sp L kebab named ident cont (fs : list (src_field Sp L)) d,
  derives_struct kebab named ident cont fs d -> forall x n,
  In x (numbered fs) -> mode_of x = Some FmChild -> default_of x = None ->
  ~ (bool_written (sf_type (snd x)) /\ unwrap_of x = None) ->
  plain_children (the_children kebab fs) ->
  named_nodes (key_of kebab x None) (node_children (s_value n)) = [] ->
  (option_written (sf_type (snd x)) ->
     forall c c' v, dr_node d n c = (c', DOk v) -> holds v (the_field x) VNone)
  /\ (~ option_written (sf_type (snd x)) -> forall c c' v, dr_node d n c <> (c', DOk v)).
Proof. exact @child_left_out. Qed.
Print Assumptions C56_child.

(** The same type with its full path is not taken for an [Option]. *)
Example C56_example :
  derives_struct kebab true (str "S") [] std_fields (struct_of "S" std_fields)
  /\ plain_props (the_properties kebab std_fields)
  /\ dr_node (struct_of "S" std_fields) (first_node (q "s b='1'")) context_new
     = (context_new, DOk (S_ "S" [("a", VNone); ("b", VSome (s_ "1"))]))
  /\ (exists e, dr_node (struct_of "S" std_fields) (first_node (q "s a='1'")) context_new
       = (context_new, DErr e))
  /\ option_written (sf_type (nth 0 std_fields (F_ "" Opt ty_string [])))
  /\ ~ option_written (sf_type (nth 1 std_fields (F_ "" Opt ty_string []))).
Proof.
  split; [apply struct_checked; vm_compute; reflexivity|].
  split.
  { split; [|repeat constructor]. vm_compute. constructor; [|constructor; [auto|constructor]].
    intros [H|[]]. discriminate. }
  split; [vm_compute; reflexivity|]. split; [eexists; vm_compute; reflexivity|].
  split; [exists true; reflexivity|]. intros [a H]. discriminate.
Qed.

(** The first argument of [job] is required, the second is not; likewise the children
    [main] and [spare]. *)
Example C56_job :
  derives_struct kebab true (str "Job") [] job_fields job
  /\ map (fun x => sf_type (snd x)) (filter argument_field (numbered job_fields)) = [T_ "String"; Opt]
  /\ (exists v, dr_node job (first_node (q "job 'a' label='x' { main 'm'; }")) context_new
       = (context_new, DOk v))
  /\ (exists e, dr_node job (first_node (q "job label='x' { main 'm'; }")) context_new
       = (context_new, DErr e))
  /\ (exists e, dr_node job (first_node (q "job 'a' label='x' { spare 'm'; }")) context_new
       = (context_new, DErr e)).
Proof.
  split; [exact (conj job_derived (conj job_proper job_newtype))|].
  split; [vm_compute; reflexivity|].
  repeat split; eexists; vm_compute; reflexivity.
Qed.
