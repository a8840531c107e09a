(** C33: positional arguments of derived structs.  [the_arguments] and [the_var_args] are
    read off the attributes of the fields (FieldSpec.v), [derives_struct] says that the
    derive accepts the struct. *)

From Coq Require Import NArith ZArith List Bool String Lia.
From Verif Require Import Chars Ast Errors Chumsky Spans Grammar Conformance Kdl Decode Scalar Containers
  DecodeSpec DeriveDef Derive DeriveSpec FieldSpec StructSpec HandSpec
  StructProps MissProps DeriveConformance DeriveSample.
Import ListNotations.
Local Open Scope list_scope.

(** Argument [i] goes to field [i]; a field without an argument holds its default or
    [None]. *)
Theorem C33_arguments : forall Sp L kebab named ident cont (fs : list (src_field Sp L)) d,
  derives_struct kebab named ident cont fs d ->
  forall n c v c', dr_node d n c = (c', DOk v) ->
  forall i f, nth_error (the_arguments fs) i = Some f ->
  exists x, holds v (ar_field f) x /\
  match nth_error (n_arguments (s_value n)) i with
  | Some a => exists c1 c2,
      decode_value (ar_decode f) (ar_option f) (f_impl (ar_field f)) a c1 = (c2, DOk x)
  | None => absent (ar_default f) (ar_kind_option f) x
  end.
Proof. exact @ds_arg. Qed.
Print Assumptions C33_arguments.

(** The remaining ones go to the [arguments] field, in order. *)
Theorem C33_rest : forall Sp L kebab named ident cont (fs : list (src_field Sp L)) d,
  derives_struct kebab named ident cont fs d ->
  forall n c v c' f m, dr_node d n c = (c', DOk v) -> the_var_args fs = Some (f, m) ->
  exists xs, holds v f (VList xs)
    /\ Forall2 (fun a x => exists c1 c2, decode_value m false (f_impl f) a c1 = (c2, DOk x))
         (skipn (List.length (the_arguments fs)) (n_arguments (s_value n))) xs.
Proof. exact @ds_args_rest. Qed.
Print Assumptions C33_rest.

Theorem C33_missing : forall Sp L kebab named ident cont (fs : list (src_field Sp L)) d,
  derives_struct kebab named ident cont fs d ->
  forall n i f, nth_error (the_arguments fs) i = Some f ->
  ar_default f = None -> ar_kind_option f = false ->
  List.length (n_arguments (s_value n)) <= i ->
  forall c c' v, dr_node d n c <> (c', DOk v).
Proof. exact @ds_arg_missing. Qed.
Print Assumptions C33_missing.

Theorem C33_surplus : forall Sp L kebab named ident cont (fs : list (src_field Sp L)) d,
  derives_struct kebab named ident cont fs d ->
  forall n, the_var_args fs = None ->
  List.length (the_arguments fs) < List.length (n_arguments (s_value n)) ->
  forall c c' v, dr_node d n c <> (c', DOk v).
Proof. exact @ds_arg_surplus. Qed.
Print Assumptions C33_surplus.

(** The node [(t)job 'a' 'b' 'c' 'd' ...] and a struct with a field of every kind. *)
Example C33_example :
  derives_struct kebab true (str "Job") [] job_fields job
  /\ dr_node job job_node context_new = (context_new, DOk job_value)
  /\ List.length (the_arguments job_fields) = 2
  /\ List.length (n_arguments (s_value job_node)) = 4
  /\ option_map snd (the_var_args job_fields) = Some DmNormal.
Proof.
  split; [exact (conj job_derived (conj job_proper job_newtype))|].
  split; [exact job_decoded|]. repeat split; vm_compute; reflexivity.
Qed.
