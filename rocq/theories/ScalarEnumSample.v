(** The enum of derive/derive_decode_scalar.md, with an attribute that has no effect. *)

From Coq Require Import NArith ZArith List Bool String.
From Verif Require Import Chars Ast Errors Chumsky Spans Grammar Conformance Kdl Decode Scalar DecodeSpec
  DeriveDef Derive DeriveSpec DeriveScalar DeriveConformance ScalarEnumSpec.
Import ListNotations.
Local Open Scope list_scope.

Definition color_variants : list (src_variant span leaf) :=
  [SrcVariant (str "Red") [] FUnit; SrcVariant (str "Blue") [ASkip] FUnit;
   SrcVariant (str "Green") [] FUnit; SrcVariant (str "InfraRed") [] FUnit].
Definition color_item : src_item span leaf := SrcEnum (str "Color") [] color_variants.
Definition color : scalar_impl span (dval leaf) :=
  match scalar_derive kebab color_item with
  | inl i => i
  | inr _ => scalar_default (fun _ c => c) (fun _ => d_panic)
  end.

Lemma color_derived : scalar_derive kebab color_item = inl color.
Proof.
  unfold color. destruct (scalar_derive kebab color_item) eqn:E; [reflexivity|].
  revert E. unfold scalar_derive, color_item.
  destruct (scalar_variants kebab color_variants) eqn:F; [discriminate|].
  vm_compute in F. discriminate.
Qed.

Lemma color_first : first_named kebab color_variants (str "infra-red")
  (SrcVariant (str "InfraRed") [] FUnit).
Proof.
  exists (firstn 3 color_variants), []. split; [reflexivity|]. split; [vm_compute; reflexivity|].
  repeat constructor; vm_compute; discriminate.
Qed.

Lemma color_hidden : first_named kebab color_variants (str "blue")
  (SrcVariant (str "Blue") [ASkip] FUnit).
Proof.
  exists (firstn 1 color_variants), (skipn 2 color_variants). split; [reflexivity|].
  split; [vm_compute; reflexivity|]. repeat constructor; vm_compute; discriminate.
Qed.

Lemma color_unknown : Forall (fun w => kebab (sv_ident w) <> str "InfraRed") color_variants.
Proof. repeat constructor; vm_compute; discriminate. Qed.

Lemma color_message :
  expectation (map (fun w => kebab (sv_ident w)) color_variants)
    (str "expected `red`, `blue`, or one of 2 others").
Proof.
  apply (Ex_many (str "red") (str "blue") [str "green"; str "infra-red"] (str "2")); [cbn; auto|].
  split; [|split; [discriminate|discriminate]].
  apply (DecodeSpec.DV_snoc 10 [] 0 0x32%N 2); [constructor|]. split; [reflexivity|now left].
Qed.
