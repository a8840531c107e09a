(** An enum with variants of every kind. *)

From Coq Require Import NArith ZArith List Bool String.
From Verif Require Import Chars Ast Errors Chumsky Spans Grammar Conformance Kdl.
From Verif Require Import Decode Scalar Containers DecodeSpec DeriveDef Derive DeriveSpec FieldSpec
  StructSpec HonestProps LexIdent LibraryProps DeriveConformance HandSpec UnwrapSpec EnumSpec
  DeriveSample UnwrapSample.
Import ListNotations.
Local Open Scope string_scope.
Local Open Scope list_scope.

Definition unit_variant : src_variant span leaf := SrcVariant (str "Unit") [] FUnit.
Definition inner_field : src_field span leaf := P_ (T_ "Arg1") ty_arg [].
Definition inner_variant : src_variant span leaf :=
  SrcVariant (str "TheInner") [] (FUnnamed [inner_field]).
Definition maybe_field : src_field span leaf := P_ Opt ty_arg [].
Definition maybe_variant : src_variant span leaf :=
  SrcVariant (str "Maybe") [] (FUnnamed [maybe_field]).
Definition pair_variant : src_variant span leaf :=
  SrcVariant (str "Pair") []
    (FUnnamed [P_ (T_ "String") ty_string [argument];
               P_ Opt ty_opt_string [AFieldMode (FmProperty (Some (str "p")))]]).
Definition hidden_variant : src_variant span leaf :=
  SrcVariant (str "Hidden") [ASkip] (FUnnamed [P_ (T_ "String") ty_string []]).

Definition choice_variants : list (src_variant span leaf) :=
  [hidden_variant; unit_variant; inner_variant; maybe_variant; pair_variant].
Definition choice_item : src_item span leaf := SrcEnum (str "Choice") [] choice_variants.
Definition choice : derived span leaf := derive_or choice_item.

Lemma choice_derived : decode_derive kebab choice_item = Some choice.
Proof. apply derived_by. vm_compute. reflexivity. Qed.

Definition tuple_check (fs : list (src_field span leaf)) : bool :=
  forallb (fun f => match sf_name f with Some _ => false | None => true end) fs
  && forallb (fun x => match mode_of x with
                       | Some (FmFlatten a b) => xorb a b
                       | _ => true
                       end) (numbered fs).

Lemma tuple_proper fs : tuple_check fs = true -> proper false fs.
Proof.
  unfold tuple_check. rewrite !andb_true_iff. intros (A & C). split.
  - revert A. apply forallb_Forall. intros f. now destruct (sf_name f).
  - revert C. apply forallb_Forall. intros x. unfold one_way.
    destruct (mode_of x) as [[]|]; try exact (fun _ => I). now destruct child, property.
Qed.

Lemma choice_proper : proper_variants choice_variants.
Proof.
  unfold proper_variants, choice_variants.
  repeat (apply Forall_cons; [first [exact I|apply tuple_proper; vm_compute; reflexivity]|]).
  apply Forall_nil.
Qed.

Lemma answers_check name (v : src_variant span leaf) :
  negb (variant_skip (sv_attrs v)) && text_eqb (kebab (sv_ident v)) name = false ->
  ~ answers kebab name v.
Proof.
  intros H [N E]. apply andb_false_iff in H. destruct H as [H|H].
  - apply N. unfold skipped. apply negb_false_iff in H. unfold variant_skip in H.
    apply existsb_exists in H. destruct H as ([] & I & K); try discriminate. exact I.
  - apply not_true_iff_false in H. apply H. now apply text_eqb_spec.
Qed.

(** The variant at a place. *)
Lemma variant_at i name v :
  nth_error choice_variants i = Some v ->
  forallb (fun w => negb (negb (variant_skip (sv_attrs w)) && text_eqb (kebab (sv_ident w)) name))
    (firstn i choice_variants) = true ->
  sv_attrs v = [] -> text_eqb (kebab (sv_ident v)) name = true ->
  variant_for kebab choice_variants name v.
Proof.
  intros E F A K. exists (firstn i choice_variants), (skipn (S i) choice_variants).
  split; [|split].
  - rewrite <- (firstn_skipn i choice_variants) at 1. f_equal.
    revert i E F. generalize choice_variants. induction l as [|x l IH]; intros [|i] E F; try discriminate.
    + now injection E as ->.
    + cbn in E. apply (IH i E). cbn in F. now apply andb_true_iff in F.
  - split; [|now apply text_eqb_spec]. unfold skipped. now rewrite A.
  - revert F. apply forallb_Forall. intros w. rewrite negb_true_iff. apply answers_check.
Qed.

Lemma choice_unit : variant_for kebab choice_variants (str "unit") unit_variant.
Proof. apply (variant_at 1); reflexivity. Qed.
Lemma choice_inner : variant_for kebab choice_variants (str "the-inner") inner_variant.
Proof. apply (variant_at 2); try reflexivity. Qed.
Lemma choice_maybe : variant_for kebab choice_variants (str "maybe") maybe_variant.
Proof. apply (variant_at 3); try reflexivity. Qed.
Lemma choice_pair : variant_for kebab choice_variants (str "pair") pair_variant.
Proof. apply (variant_at 4); try reflexivity. Qed.

Lemma choice_other name :
  forallb (fun w => negb (negb (variant_skip (sv_attrs w)) && text_eqb (kebab (sv_ident w)) name))
    choice_variants = true ->
  Forall (fun v => ~ answers kebab name v) choice_variants.
Proof. apply forallb_Forall. intros w. rewrite negb_true_iff. apply answers_check. Qed.

Definition unit_node : snode span := first_node (q "(t)unit").
Definition inner_node : snode span := first_node (q "the-inner 'x'").
Definition none_node : snode span := first_node (q "(t)maybe").
Definition braces_node : snode span := first_node (q "maybe 'x' { }").
Definition pair_node : snode span := first_node (q "(t)pair 'x' p='y'").
Definition hidden_node : snode span := first_node (q "hidden 'x'").

(** A newtype. *)
Definition newtype_item : src_item span leaf :=
  struct_item false (str "New") [] [maybe_field].
Definition newtype_derived : derived span leaf := derive_or newtype_item.

Lemma newtype_is_derived : decode_derive kebab newtype_item = Some newtype_derived.
Proof. apply derived_by. vm_compute. reflexivity. Qed.

(** Type names that nothing asks for. *)
Definition typed_node : snode span :=
  first_node (q "n { (t)one 'x'; many '1' '2'; prop prop='y'; props k='1' l='2'; kids { u 'a'; v 'b'; }; points { point 'c'; }; deep { deep 'z'; }; }").

Definition flagged_item : src_item span leaf :=
  struct_item true (str "Flagged") [] [F_ "flag" (T_ "bool") ty_bool [child_]].
Definition flagged : derived span leaf := derive_or flagged_item.
Definition flagged_node : snode span := first_node (q "n { (t)flag; }").

(** What the nodes are. *)
Lemma named (n : snode span) name vs (v : src_variant span leaf) :
  text_eqb (name_of n) name = true -> variant_for kebab vs name v ->
  variant_for kebab vs (name_of n) v.
Proof. intros E. apply text_eqb_spec in E. now rewrite E. Qed.

Definition bare_check (n : snode span) : bool :=
  match n_arguments (s_value n), n_properties (s_value n), n_children (s_value n) with
  | [], [], None => true
  | _, _, _ => false
  end.

Lemma bare_checked n : bare_check n = true -> bare n.
Proof.
  unfold bare_check, bare. destruct (n_arguments _), (n_properties _), (n_children _);
    intros H; try discriminate. auto.
Qed.

Lemma not_bare_checked n : bare_check n = false -> ~ bare n.
Proof. unfold bare_check, bare. intros H (A & B & C). now rewrite A, B, C in H. Qed.

Lemma typed_checked (n : snode span) :
  (if n_type_name (s_value n) then true else false) = true -> n_type_name (s_value n) <> None.
Proof. now destruct (n_type_name _). Qed.
