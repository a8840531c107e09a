(** The implementations in the crate only add errors to the context. *)

From Coq Require Import NArith ZArith List Bool String.
From Verif Require Import Chars Ast Errors Chumsky Decode Scalar Containers DecodeSpec
  StructSpec HonestProps AstProps.
Import ListNotations.

Section Library.
Context {Sp : Type} (R : context Sp -> context Sp -> Prop) (O : onward R).

Lemma default_within {A} tc (rd : spanned literal Sp -> dec Sp A) :
  (forall ty c, R c (tc ty c)) -> (forall v, moves R (rd v)) -> scalar_within R (scalar_default tc rd).
Proof.
  intros H1 H2. split; auto. intros v c. eapply (on_trans _ O); [apply H1|apply H2].
Qed.

Lemma no_type_check_within name ty c : R c (no_type_check name ty c).
Proof. destruct ty; [apply (on_emit _ O)|apply (on_refl _ O)]. Qed.

Lemma number_type_check_within marker name ty c : R c (number_type_check marker name ty c).
Proof.
  destruct ty; cbn [number_type_check]; [|apply (on_refl _ O)].
  destruct (match _ with Some _ => _ | None => _ end); [apply (on_refl _ O)|apply (on_emit _ O)].
Qed.

Lemma string_within t : scalar_within R (string_impl t).
Proof.
  apply default_within; [apply no_type_check_within|]. intros v c. unfold string_raw_decode.
  destruct (s_value v); first [apply (on_refl _ O)|apply (on_emit _ O)].
Qed.

Lemma bool_within : scalar_within R bool_impl.
Proof.
  apply default_within; [apply no_type_check_within|]. intros v c. unfold bool_raw_decode.
  destruct (s_value v); first [apply (on_refl _ O)|apply (on_emit _ O)].
Qed.

Lemma int_within t : scalar_within R (int_impl t).
Proof.
  apply default_within; [apply number_type_check_within|]. intros v c. unfold int_raw_decode.
  destruct (s_value v); try destruct (int_try_from _ _ _);
    first [apply (on_refl _ O)|apply (on_emit _ O)].
Qed.

Lemma float_within {F} t (from_str : text -> option F) zero :
  scalar_within R (float_impl t from_str zero).
Proof.
  apply default_within; [apply number_type_check_within|]. intros v c. unfold float_raw_decode.
  destruct (s_value v); try destruct (from_str _);
    first [apply (on_refl _ O)|apply (on_emit _ O)].
Qed.

Lemma scalar_enum_within {A} name (vs : list (text * A)) :
  scalar_within R (scalar_enum_impl name vs).
Proof.
  apply default_within; [apply no_type_check_within|]. intros v c. unfold scalar_enum_raw.
  destruct (s_value v); try destruct (match_name _ _); apply (on_refl _ O).
Qed.

Lemma literal_within : scalar_within R literal_impl.
Proof. apply default_within; intros; [|intros c]; apply (on_refl _ O). Qed.

Lemma option_within {A} (i : scalar_impl Sp A) : scalar_within R i -> scalar_within R (option_impl i).
Proof.
  intros [H1 H2 H3]. apply default_within; [exact H1|]. intros v.
  destruct (s_value v); first [apply (adds_ok R O)|apply (adds_map R O); apply H2].
Qed.

Lemma wrapped_within {A B} (f : A -> B) (i : scalar_impl Sp A) :
  scalar_within R i -> scalar_within R (wrapped_impl f i).
Proof.
  intros [H1 H2 H3]. apply default_within; [exact H1|]. intros v. apply (adds_map R O), H2.
Qed.

Lemma spanned_within {A Q} (ds : span_impl Sp Q) (i : scalar_impl Sp A) :
  (forall sp c, R c (fst (ds sp c))) -> scalar_within R i -> scalar_within R (spanned_impl ds i).
Proof.
  intros Hs [H1 H2 H3]. apply default_within; [exact H1|]. intros v. apply (adds_bind R O); [apply H2|].
  intros a c. pose proof (Hs (s_span v) c) as M. now destruct (ds (s_span v) c).
Qed.

Lemma clone_within {T Q} (ds : span_impl Sp Q) (s : spanned T Sp) c :
  (forall sp c, R c (fst (ds sp c))) -> R c (fst (clone_as ds s c)).
Proof. intros Hs. unfold clone_as. pose proof (Hs (s_span s) c) as M. now destruct (ds _ c). Qed.

Lemma value_within {Q} (ds : span_impl Sp Q) : (forall sp c, R c (fst (ds sp c))) ->
  scalar_within R (value_impl ds).
Proof.
  intros Hs. split; [intros; apply (on_refl _ O)|intros v; apply (adds_panic R O)|].
  intros v c. cbn [value_impl sc_decode]. unfold value_decode.
  destruct (v_type_name v) as [n|].
  - pose proof (clone_within ds n c Hs) as M. destruct (clone_as ds n c) as [c1 n'].
    pose proof (clone_within ds (v_literal v) c1 Hs) as M'.
    destruct (clone_as ds (v_literal v) c1) as [c2 l]. eapply (on_trans _ O); eassumption.
  - pose proof (clone_within ds (v_literal v) c Hs) as M'.
    now destruct (clone_as ds (v_literal v) c) as [c2 l].
Qed.

Lemma vec_loop_within {A} (d : node_impl Sp A) ns acc : (forall n, moves R (d n)) ->
  moves R (vec_loop d ns acc).
Proof.
  intros H. revert acc.
  induction ns as [|n ns IH]; intros acc c; cbn [vec_loop]; [apply (on_refl _ O)|].
  pose proof (H n c) as M. destruct (d n c) as [c' [a|e|]]; cbn [fst] in *; auto.
  - eapply (on_trans _ O); [exact M|apply IH].
  - eapply (on_trans _ O); [exact M|]. eapply (on_trans _ O); [apply (on_emit _ O)|apply IH].
Qed.

Lemma vec_within {A} (d : node_impl Sp A) ns : (forall n, moves R (d n)) -> moves R (vec_children d ns).
Proof. apply vec_loop_within. Qed.

Lemma pure_within {A} (f : context Sp -> context Sp * A) : (forall c, R c (fst (f c))) ->
  moves R (d_pure f).
Proof. intros H c. unfold d_pure. pose proof (H c) as M. now destruct (f c). Qed.

Lemma ast_node_within {Q} (ds : span_impl Sp Q) : (forall sp c, R c (fst (ds sp c))) ->
  forall n, moves R (ast_node ds n).
Proof.
  intros Hs. fix IH 1. intros [ty nm args props ch]. cbn [ast_node].
  assert (Ch : moves R (match ch with
    | None => d_ok None
    | Some sc =>
        d_bind (d_pure (ds (s_span sc))) (fun sp' =>
        d_bind ((fix go (l : list (snode Sp)) : dec Sp (list (snode Q)) :=
                   match l with
                   | [] => d_ok []
                   | sn :: l' =>
                       d_bind (d_pure (ds (s_span sn))) (fun q =>
                       d_bind (ast_node ds (s_value sn)) (fun n' =>
                       d_bind (go l') (fun l'' => d_ok (Spanned q n' :: l''))))
                   end) (s_value sc)) (fun l' =>
        d_ok (Some (Spanned sp' l'))))
    end)).
  { destruct ch as [[sp l]|]; [|apply (adds_ok R O)].
    apply (adds_bind R O); [apply pure_within, Hs|]. intros sp'.
    apply (adds_bind R O); [|intros l'; apply (adds_ok R O)].
    cbn [s_value]. induction l as [|[sq m] l IHl]; [apply (adds_ok R O)|].
    apply (adds_bind R O); [apply pure_within, Hs|]. intros q.
    apply (adds_bind R O); [apply (IH m)|]. intros n'.
    apply (adds_bind R O); [exact IHl|]. intros l''. apply (adds_ok R O). }
  clear IH.
  assert (Va : forall v, moves R (value_decode ds v)) by (apply (sw_decode R _ (value_within ds Hs))).
  assert (Cl : forall T (x : spanned T Sp), moves R (d_pure (clone_as ds x)))
    by (intros; apply pure_within; intros; now apply clone_within).
  apply (adds_bind R O). { destruct ty; [apply (adds_map R O), Cl|apply (adds_ok R O)]. }
  intros ty'. apply (adds_bind R O); [apply Cl|]. intros nm'.
  apply (adds_bind R O); [apply (adds_collect R O); intros; apply Va|]. intros args'.
  apply (adds_bind R O).
  { apply (adds_collect R O). intros kv _. apply (adds_bind R O); [apply Cl|]. intros k'.
    apply (adds_bind R O); [apply Va|]. intros v'. apply (adds_ok R O). }
  intros props'. apply (adds_bind R O); [exact Ch|]. intros ch'. apply (adds_ok R O).
Qed.

Lemma ast_snode_within {Q} (ds : span_impl Sp Q) n : (forall sp c, R c (fst (ds sp c))) ->
  moves R (ast_snode_impl ds n).
Proof.
  intros Hs. apply (adds_bind R O); [apply pure_within, Hs|]. intros q.
  apply (adds_bind R O); [apply ast_node_within, Hs|]. intros n'. apply (adds_ok R O).
Qed.

End Library.
