(** Items that the derive accepts, and items that it does not. *)

From Coq Require Import NArith ZArith List Bool String.
From Verif Require Import Chars Ast Errors Chumsky Spans Grammar Conformance Kdl.
From Verif Require Import Decode Scalar Containers DecodeSpec DeriveDef Derive DeriveSpec FieldSpec
  StructSpec DeriveConformance HandSpec UnwrapSpec DeriveSample UnwrapSample AcceptSpec AcceptProps.
Import ListNotations.
Local Open Scope string_scope.
Local Open Scope list_scope.

Definition accepts (i : src_item span leaf) : bool :=
  if decode_derive kebab i then true else false.

Lemma derive_accepts Sp L kebab (i : src_item Sp L) : item_proper i ->
  decode_derive kebab i <> None <-> item_allowed i.
Proof.
  intros P. rewrite <- (item_accepted kebab i P). unfold some.
  destruct (decode_derive kebab i) as [d|]; split; try congruence.
  - intros _. now exists d.
  - intros [d K]. discriminate.
Qed.

Definition one (attrs : list (attr leaf)) : src_item span leaf :=
  SrcStruct (str "One") [] (FNamed [F_ "a" (T_ "String") ty_string attrs]).
Definition two (attrs1 attrs2 : list (attr leaf)) : src_item span leaf :=
  SrcStruct (str "Two") []
    (FNamed [F_ "a" (T_ "String") ty_string attrs1; F_ "b" (T_ "String") ty_string attrs2]).
Definition tuple (attrs1 attrs2 : list (attr leaf)) : src_fields span leaf :=
  FUnnamed [P_ (T_ "String") ty_string attrs1; P_ (T_ "String") ty_string attrs2].
Definition kind_item : src_item span leaf :=
  SrcEnum (str "Kind") [ASpanType]
    [ SrcVariant (str "Plain") [] FUnit;
      SrcVariant (str "Pair") [] (tuple [argument] [AFieldMode (FmProperty (Some (str "b")))]);
      SrcVariant (str "Hidden") [ASkip] (FNamed [F_ "a" (T_ "String") ty_string [ASkip]]) ].

Definition decode_str : attr leaf := ADecodeMode DmStr.

(** All accepted. *)
Definition good_items : list (src_item span leaf) :=
  [ job_item; wrap_item; kind_item;
    one [decode_str; argument]; two [arguments] [property]; two [child_] [children_];
    one [child_; AUnwrap (FieldAttrs (Some FmArgument) (Some DmStr) None None)];
    SrcStruct (str "T") [] (tuple [argument] []) ].

(** All rejected: two modes; two decode modes; [skip] on a field; a decode mode on a
    child, inside and outside of [unwrap]; nothing to unwrap; an argument after all
    arguments; a child after all children; a child and an unnamed property in a tuple; an optional
    flattened field; a variant with named fields; a variant with a span; an attribute that
    is not for variants; one that is not for containers. *)
Definition bad_items : list (src_item span leaf) :=
  [ one [argument; property]; one [argument; decode_str; ADecodeMode DmBytes]; one [argument; ASkip];
    one [child_; decode_str];
    one [child_; AUnwrap (FieldAttrs (Some FmChild) (Some DmStr) None None)];
    one [child_; AUnwrap (FieldAttrs None None None None)];
    two [arguments] [argument]; two [children_] [child_];
    SrcStruct (str "T") [] (tuple [child_] []); SrcStruct (str "T") [] (tuple [property] []);
    SrcStruct (str "T") [] (FNamed [F_ "a" Opt ty_string [AFieldMode (FmFlatten true false)]]);
    SrcEnum (str "E") [] [SrcVariant (str "V") [] (FNamed [F_ "a" (T_ "String") ty_string [argument]])];
    SrcEnum (str "E") [] [SrcVariant (str "V") [] (tuple [argument] [AFieldMode FmSpan])];
    SrcEnum (str "E") [] [SrcVariant (str "V") [argument] FUnit];
    SrcStruct (str "S") [ASkip] (FNamed []) ].

Definition unnamed_check (fs : list (src_field span leaf)) : bool :=
  forallb (fun f => match sf_name f with Some _ => false | None => true end) fs
  && forallb (fun x => match mode_of x with
                       | Some (FmFlatten a b) => xorb a b
                       | _ => true
                       end) (numbered fs).

Definition fields_check (fields : src_fields span leaf) : bool :=
  match fields with FUnnamed fs => unnamed_check fs | _ => true end.

Definition item_check (i : src_item span leaf) : bool :=
  match i with
  | SrcStruct _ _ fields => fields_check fields
  | SrcEnum _ _ vs => forallb (fun v => fields_check (sv_fields v)) vs
  end.

Lemma fields_checked fields : fields_check fields = true -> fields_proper fields.
Proof.
  destruct fields as [fs|fs|]; cbn [fields_check fields_proper]; auto.
  unfold unnamed_check. rewrite andb_true_iff. intros [A B]. split.
  - revert A. apply forallb_Forall. intros f. now destruct (sf_name f).
  - revert B. apply forallb_Forall. intros x. unfold one_way.
    destruct (mode_of x) as [[]|]; try exact (fun _ => I). now destruct child, property.
Qed.

Lemma item_checked i : item_check i = true -> item_proper i.
Proof.
  destruct i as [id cont fields|id cont vs]; cbn [item_check item_proper].
  - apply fields_checked.
  - apply forallb_Forall. intros v. apply fields_checked.
Qed.

Lemma good_proper : Forall item_proper good_items.
Proof. apply (forallb_Forall item_check); [apply item_checked|]. vm_compute. reflexivity. Qed.

Lemma bad_proper : Forall item_proper bad_items.
Proof. apply (forallb_Forall item_check); [apply item_checked|]. vm_compute. reflexivity. Qed.

Lemma accepted_allowed i : item_proper i -> accepts i = true -> item_allowed i.
Proof.
  intros P A. apply (derive_accepts _ _ kebab i P). unfold accepts in A.
  now destruct (decode_derive kebab i).
Qed.

Lemma rejected_not_allowed i : item_proper i -> accepts i = false -> ~ item_allowed i.
Proof.
  intros P A K. apply (derive_accepts _ _ kebab i P) in K. unfold accepts in A.
  now destruct (decode_derive kebab i).
Qed.

Lemma good_allowed : Forall item_allowed good_items.
Proof.
  assert (A : forallb accepts good_items = true) by (vm_compute; reflexivity).
  rewrite forallb_forall in A. pose proof good_proper as P. rewrite Forall_forall in P |- *.
  intros i I. apply accepted_allowed; auto.
Qed.

Lemma bad_not_allowed : Forall (fun i => ~ item_allowed i) bad_items.
Proof.
  assert (A : forallb (fun i => negb (accepts i)) bad_items = true) by (vm_compute; reflexivity).
  rewrite forallb_forall in A. pose proof bad_proper as P. rewrite Forall_forall in P |- *.
  intros i I. apply rejected_not_allowed; auto. now apply negb_true_iff, A.
Qed.

(** [str] on a field that no attribute gives a place is accepted, and does nothing. *)
Lemma decode_ignored : item_allowed (one [decode_str]).
Proof.
  apply accepted_allowed; [apply item_checked; vm_compute; reflexivity|]. vm_compute. reflexivity.
Qed.
