(** Concrete cases about how the derive files fields. *)

From Coq Require Import NArith ZArith List Bool String.
From Verif Require Import Chars Ast Errors Chumsky Spans Grammar Conformance Kdl.
From Verif Require Import Decode Scalar Containers DecodeSpec DeriveDef Derive DeriveSpec FieldSpec
  FieldProps StructSpec HandSpec DeriveConformance DeriveSample.
Import ListNotations.
Local Open Scope string_scope.
Local Open Scope list_scope.

Lemma struct_filed Sp L kebab ident (fs : list (src_field Sp L)) s :
  struct_new kebab ident fs = inl (s, []) -> filed kebab ident fs s.
Proof. intros H. exact (proj1 (struct_new_filed kebab ident fs s H)). Qed.

Lemma struct_order Sp L kebab ident (fs : list (src_field Sp L)) s :
  struct_new kebab ident fs = inl (s, []) ->
  forall pre y post, numbered fs = pre ++ y :: post ->
  Forall (fun z => after_all (mode_of y) (mode_of z)) post.
Proof. intros H. exact (proj2 (struct_new_filed kebab ident fs s H)). Qed.

(** The struct that the derive makes, if it reports nothing. *)
Definition new_struct (id : string) (fs : list (src_field span leaf)) : option (struct span leaf) :=
  match struct_new kebab (str id) fs with inl (s, []) => Some s | _ => None end.

Lemma new_struct_some id fs s : new_struct id fs = Some s ->
  struct_new kebab (str id) fs = inl (s, []).
Proof.
  unfold new_struct. destruct (struct_new _ _ _) as [[s' [|]]|]; intros H; try discriminate.
  now injection H as <-.
Qed.

Ltac struct_by id fs check :=
  assert (K : match new_struct id fs with Some s => check s | None => False end)
    by (vm_compute; reflexivity || exact I);
  destruct (new_struct id fs) as [s|] eqn:N; [|contradiction];
  apply new_struct_some in N.

Definition both_fields : list (src_field span leaf) :=
  [F_ "inner" (T_ "Inner") ty_none [AFieldMode (FmFlatten true true)]].
Definition none_fields : list (src_field span leaf) :=
  [F_ "inner" (T_ "Inner") ty_none [AFieldMode (FmFlatten false false)]].

Lemma filed_twice : exists (fs : list (src_field span leaf)) s,
  struct_new kebab (str "Both") fs = inl (s, [])
  /\ List.length fs = 1 /\ List.length (all_fields s) = 2.
Proof.
  struct_by "Both" both_fields (fun s : struct span leaf => List.length (all_fields s) = 2).
  exists both_fields, s. auto.
Qed.

Lemma filed_nowhere : exists (fs : list (src_field span leaf)) s,
  struct_new kebab (str "None") fs = inl (s, []) /\ List.length fs = 1 /\ all_fields s = [].
Proof.
  struct_by "None" none_fields (fun s : struct span leaf => List.length (all_fields s) = 0).
  exists none_fields, s. split; [exact N|]. split; [reflexivity|].
  destruct (all_fields s); [reflexivity|discriminate].
Qed.

Lemma job_filed : exists s,
  struct_new kebab (str "Job") job_fields = inl (s, [])
  /\ Forall one_way (numbered job_fields) /\ List.length job_fields = 16.
Proof.
  struct_by "Job" job_fields (fun s : struct span leaf => True).
  exists s. split; [exact N|]. split; [exact (proj2 job_proper)|reflexivity].
Qed.
