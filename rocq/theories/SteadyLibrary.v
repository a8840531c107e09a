(** The implementations in the crate do the same in every context. *)

From Coq Require Import NArith ZArith List Bool String.
From Verif Require Import Chars Ast Errors Chumsky Decode Scalar Containers DecodeSpec
  StructSpec SteadySpec SteadyProps.
Import ListNotations.

Section Library.
Context {Sp : Type}.

Lemma default_steady {A} tc (rd : spanned literal Sp -> dec Sp A) :
  (forall ty, exists es, forall c, tc ty c = added es c) -> (forall v, steady (rd v)) ->
  steady_scalar (scalar_default tc rd).
Proof.
  intros H1 H2. split; auto. intros v. cbn [scalar_default sc_decode]. unfold default_decode.
  destruct (H1 (v_type_name v)) as (e1 & E1). destruct (H2 (v_literal v)) as (e2 & r & E2).
  exists (e1 ++ e2), r. intros c. rewrite E1, E2, added_added. reflexivity.
Qed.

Lemma no_type_check_steady name (ty : option (spanned typename Sp)) :
  exists es, forall c, no_type_check name ty c = added es c.
Proof.
  destruct ty; [eexists [_]; reflexivity|exists []; intros c; now rewrite added_nil].
Qed.

Lemma number_type_check_steady marker name (ty : option (spanned typename Sp)) :
  exists es, forall c, number_type_check marker name ty c = added es c.
Proof.
  destruct ty; cbn [number_type_check]; [|exists []; intros c; now rewrite added_nil].
  destruct (match _ with Some _ => _ | None => _ end);
    [exists []; intros c; now rewrite added_nil|eexists [_]; reflexivity].
Qed.

Ltac easy_steady :=
  first [eexists [], _; intros c; rewrite added_nil; reflexivity|eexists [_], _; intros c; reflexivity].

Lemma string_steady t : steady_scalar (Sp := Sp) (string_impl t).
Proof.
  apply default_steady; [apply no_type_check_steady|]. intros v. unfold string_raw_decode.
  destruct (s_value v); easy_steady.
Qed.

Lemma bool_steady : steady_scalar (Sp := Sp) bool_impl.
Proof.
  apply default_steady; [apply no_type_check_steady|]. intros v. unfold bool_raw_decode.
  destruct (s_value v); easy_steady.
Qed.

Lemma int_steady t : steady_scalar (Sp := Sp) (int_impl t).
Proof.
  apply default_steady; [apply number_type_check_steady|]. intros v. unfold int_raw_decode.
  destruct (s_value v); try destruct (int_try_from _ _ _); easy_steady.
Qed.

Lemma float_steady {F} t (from_str : text -> option F) zero :
  steady_scalar (Sp := Sp) (float_impl t from_str zero).
Proof.
  apply default_steady; [apply number_type_check_steady|]. intros v. unfold float_raw_decode.
  destruct (s_value v); try destruct (from_str _); easy_steady.
Qed.

Lemma scalar_enum_steady {A} name (vs : list (text * A)) :
  steady_scalar (Sp := Sp) (scalar_enum_impl name vs).
Proof.
  apply default_steady; [apply no_type_check_steady|]. intros v. unfold scalar_enum_raw.
  destruct (s_value v); try destruct (match_name _ _); easy_steady.
Qed.

Lemma literal_steady : steady_scalar (Sp := Sp) literal_impl.
Proof.
  apply default_steady; [|intros v; apply st_ok]. intros ty. exists []. intros c. now rewrite added_nil.
Qed.

Lemma option_steady {A} (i : scalar_impl Sp A) : steady_scalar i -> steady_scalar (option_impl i).
Proof.
  intros [H1 H2 H3]. apply default_steady; [exact H1|]. intros v.
  destruct (s_value v); first [apply st_ok|apply st_map; apply H2].
Qed.

Lemma wrapped_steady {A B} (f : A -> B) (i : scalar_impl Sp A) :
  steady_scalar i -> steady_scalar (wrapped_impl f i).
Proof. intros [H1 H2 H3]. apply default_steady; [exact H1|]. intros v. apply st_map, H2. Qed.

End Library.

Lemma library_steady Sp :
  (forall t, steady_scalar (Sp := Sp) (string_impl t))
  /\ steady_scalar (Sp := Sp) bool_impl
  /\ (forall t, steady_scalar (Sp := Sp) (int_impl t))
  /\ (forall F t (from_str : text -> option F) zero,
        steady_scalar (Sp := Sp) (float_impl t from_str zero))
  /\ (forall A name (vs : list (text * A)), steady_scalar (Sp := Sp) (scalar_enum_impl name vs))
  /\ steady_scalar (Sp := Sp) literal_impl
  /\ (forall A (i : scalar_impl Sp A), steady_scalar i -> steady_scalar (option_impl i))
  /\ (forall A B (f : A -> B) (i : scalar_impl Sp A),
        steady_scalar i -> steady_scalar (wrapped_impl f i)).
Proof.
  repeat split; intros; try apply string_steady; try apply bool_steady; try apply int_steady;
    try apply float_steady; try apply scalar_enum_steady; try apply literal_steady;
    try (now apply option_steady); try (now apply wrapped_steady).
Qed.
