(** C44: the derive files each field once.  [filed] and [after_all] are about the
    attributes in the source (FieldSpec.v). *)

From Coq Require Import NArith ZArith List Bool String Lia Permutation.
From Verif Require Import Chars Ast Errors Chumsky Spans Grammar Conformance Kdl Decode Scalar Containers
  DecodeSpec DeriveDef Derive DeriveSpec FieldSpec StructSpec HandSpec
  FieldProps DeriveConformance DeriveSample FileSample.
Import ListNotations.
Local Open Scope list_scope.

(** The categories hold the fields with the attributes of the category, in the order of
    the source. *)
Theorem C44_filed : forall Sp L kebab ident (fs : list (src_field Sp L)) s,
  struct_new kebab ident fs = inl (s, []) -> filed kebab ident fs s.
Proof. exact struct_filed. Qed.
Print Assumptions C44_filed.

(** No argument follows an [arguments] field, and the same for properties and
    children. *)
Theorem C44_order : forall Sp L kebab ident (fs : list (src_field Sp L)) s,
  struct_new kebab ident fs = inl (s, []) ->
  forall pre y post, numbered fs = pre ++ y :: post ->
  Forall (fun z => after_all (mode_of y) (mode_of z)) post.
Proof. exact struct_order. Qed.
Print Assumptions C44_order.

(** Each field is in one category, once; so the struct expression names each once. *)
Theorem C44_once : forall Sp L kebab ident (fs : list (src_field Sp L)) s,
  struct_new kebab ident fs = inl (s, []) -> Forall one_way (numbered fs) ->
  Permutation (all_fields s) (map the_field (numbered fs)).
Proof. exact @files_once. Qed.
Print Assumptions C44_once.

(** Without [one_way] that is false: [flatten(child, property)] is accepted and filed
    twice, [flatten()] is accepted and filed nowhere. *)
Theorem C44_once_refuted : exists (fs : list (src_field span leaf)) s,
  struct_new kebab (str "Both") fs = inl (s, [])
  /\ List.length fs = 1 /\ List.length (all_fields s) = 2.
Proof. exact filed_twice. Qed.
Print Assumptions C44_once_refuted.

Theorem C44_somewhere_refuted : exists (fs : list (src_field span leaf)) s,
  struct_new kebab (str "None") fs = inl (s, [])
  /\ List.length fs = 1 /\ all_fields s = [].
Proof. exact filed_nowhere. Qed.
Print Assumptions C44_somewhere_refuted.

Example C44_example : exists s,
  struct_new kebab (str "Job") job_fields = inl (s, [])
  /\ Forall one_way (numbered job_fields) /\ List.length job_fields = 16.
Proof. exact job_filed. Qed.
