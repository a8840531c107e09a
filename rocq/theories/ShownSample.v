(** What is shown of the errors of the sample types. *)

From Coq Require Import NArith ZArith List Bool String.
From Verif Require Import Chars Ast Errors Chumsky Spans Grammar Conformance Kdl ErrSpec Decode Scalar Containers
  DecodeSpec DeriveDef Derive DeriveSpec FieldSpec StructSpec HandSpec HonestProps UnwrapSpec PointSpec PointProps
  DeriveConformance DeriveSample TruthSample ErrorText ShownSpec ShownProps.
Import ListNotations.
Local Open Scope string_scope.
Local Open Scope list_scope.

(** The errors of other libraries. *)
Definition failed (_ : N) : text := str "failed".

Lemma failed_printable : forall c, printable (failed c).
Proof. intros c. apply printable_checked. vm_compute. reflexivity. Qed.

Lemma scalar_shown {A} (i : scalar_impl span A) f dflt : shows_scalar failed i ->
  shows failed (ty_scalar i f dflt).
Proof.
  intros H. split; intros; try apply says_panic.
  - apply says_map, (ss_decode _ _ H).
  - apply says_ok.
  - match goal with H : _ = inr _ |- _ => injection H as <- end. apply failed_printable.
  - match goal with H : _ = inr _ |- _ => injection H as <- end. apply failed_printable.
  - discriminate.
Qed.

Lemma derived_shown o dflt : (forall d, o = Some d -> forall n, reports (derror_printable failed) (dr_node d n)) ->
  shows failed (ty_derived o dflt).
Proof.
  intros H. destruct o as [d|]; cbn [ty_derived]; split; intros; try apply says_panic; try apply says_ok;
    try discriminate; try (match goal with H : _ = inr _ |- _ => injection H as <- end; apply failed_printable).
  exact (H d eq_refl n).
Qed.

Ltac by_name := intros; repeat match goal with H : _ \/ _ |- _ => destruct H | H : False |- _ => contradiction end;
  subst; apply printable_checked; vm_compute; reflexivity.

Definition arg1_fields : list (src_field span leaf) := [F_ "name" (T_ "String") ty_string [argument]].

Lemma arg1_shown : fields_show failed kebab arg1_fields.
Proof.
  split.
  - constructor; [|constructor]. apply scalar_shown, string_shows.
  - split; [|split; constructor]. intros a x [<-|[]] H. injection H as <-. by_name.
  - contradiction.
  - discriminate.
Qed.

Lemma ty_arg_shown : shows failed ty_arg.
Proof.
  apply derived_shown. intros d E n.
  apply (struct_shows _ _ kebab true (str "Arg1") [] arg1_fields d).
  - split; [exact E|]. split; [apply named_proper; vm_compute; reflexivity|]. intros [H _]. discriminate.
  - exact failed_printable.
  - constructor; [apply (ty_string_within appends appends_onward)|constructor].
  - exact arg1_shown.
  - apply plain_checked. vm_compute. reflexivity.
Qed.

Lemma doc_shown : fields_show failed kebab doc_fields.
Proof.
  split.
  - unfold doc_fields, F_.
    repeat (constructor; [cbn [sf_impl]; first [apply scalar_shown, bool_shows|apply ty_arg_shown]|]).
    constructor.
  - split; [contradiction|]. split; [constructor|].
    cbn [the_children]. repeat (apply Forall_cons; [by_name|]). apply Forall_nil.
  - intros d [<-|[<-|[<-|[]]]]; exact I.
  - discriminate.
Qed.

Lemma job_shown : fields_show failed kebab job_fields.
Proof.
  split.
  - unfold job_fields, F_.
    assert (forall p, (forall t, exists x, p t = inl x) -> shows failed (ty_from_str p)) as S.
    { intros p H. split; intros; try apply says_panic; try apply says_ok.
      - destruct (H t) as [x E]. cbn in *. congruence.
      - match goal with H : _ = inr _ |- _ => injection H as <- end. apply failed_printable.
      - destruct (H t) as [x E]. cbn in *. congruence. }
    assert (shows failed ty_span) as T.
    { split; intros; try apply says_panic; try apply says_ok; try discriminate;
        (match goal with H : _ = inr _ |- _ => injection H as <- end; apply failed_printable). }
    pose proof (scalar_shown _ v_text (v_text []) (string_shows failed TString)) as U1.
    pose proof (scalar_shown _ (v_opt v_text) VNone (option_shows failed _ (string_shows failed TString))) as U2.
    pose proof (scalar_shown _ VBool (VBool false) (bool_shows failed)) as U3.
    pose proof ty_arg_shown as U4.
    repeat (constructor; [cbn [sf_impl]; first [exact T|exact U1|exact U2|exact U3|exact U4|apply S; eauto]|]).
    constructor.
  - split; [|split].
    + assert (forallb (fun a => match f_attr (ar_field a) with Named x => printable_check x | _ => true end)
                (the_arguments job_fields) = true) as H by (vm_compute; reflexivity).
      rewrite forallb_forall in H. intros a x I E. specialize (H a I). cbv beta in H. rewrite E in H.
      now apply printable_checked.
    + assert (forallb (fun p => printable_check (pr_name p)) (the_properties kebab job_fields) = true) as H
        by (vm_compute; reflexivity).
      rewrite forallb_forall in H. apply Forall_forall. intros p I. now apply printable_checked, H.
    + assert (forallb (fun p => printable_check (ch_name p)) (the_children kebab job_fields) = true) as H
        by (vm_compute; reflexivity).
      rewrite forallb_forall in H. apply Forall_forall. intros p I. now apply printable_checked, H.
  - assert (forallb (fun d => match ch_unwrap d with None => true | _ => false end)
              (the_children kebab job_fields) = true) as H by (vm_compute; reflexivity).
    rewrite forallb_forall in H. intros d J. specialize (H d J). cbv beta in H.
    destruct (ch_unwrap d); [discriminate|exact I].
  - intros f u H. assert (match the_var_children job_fields with Some (_, Some _) => False | _ => True end) as K
      by (vm_compute; exact I).
    rewrite H in K. destruct u; [contradiction|exact I].
Qed.

Definition map_errors {Sp A} (f : perror Sp -> A) (r : parsed Sp (document Sp)) : list A :=
  match r with Rejected errs => map f errs | _ => [] end.

Lemma doc_shows : exists f es, dr_children doc = Some f
  /\ parse (parse_ast_span (q "'a\nb'; main 1; flag x=(q)2")) f = Decode_errors es
  /\ map (derror_message failed) es
     = [str "unexpected node `a\nb`"; str "expected string scalar, found integer";
        str "unexpected property `x`"].
Proof.
  assert (K : match dr_children doc with
              | Some f => match parse (parse_ast_span (q "'a\nb'; main 1; flag x=(q)2")) f with
                          | Decode_errors es => map (derror_message failed) es
     = [str "unexpected node `a\nb`"; str "expected string scalar, found integer";
        str "unexpected property `x`"]
                          | _ => False
                          end
              | None => False
              end) by (vm_compute; reflexivity).
  destruct (dr_children doc) as [f|]; [|contradiction]. exists f.
  destruct (parse (parse_ast_span _) f); try contradiction. eauto.
Qed.

Lemma type_name_raw : forall c : context span, exists e,
  c_errors (fst (sc_decode (int_impl TU8)
    (Value (Some (Spanned (Span 3 9) (Custom (str "a" ++ [0x0A%N] ++ str "b")))) (Spanned (Span 10 11) (LInt Dec (str "1"))))
    c)) = c_errors c ++ [e]
  /\ derror_message failed e = str "u8 or no type for u8, found a" ++ [0x0A%N] ++ str "b"
  /\ ~ printable (derror_message failed e).
Proof.
  intros c. eexists. split; [reflexivity|]. split; [reflexivity|]. intros P. unfold printable in P.
  rewrite Forall_forall in P. specialize (P 0x0A%N). assert (0x20 <= 0x0A)%N as X; [|now apply X].
  apply P. vm_compute. tauto.
Qed.

Lemma deep_shown : shows failed (f_impl deep_field).
Proof. apply scalar_shown, string_shows. Qed.

Lemma deep_names :
  unwraps_printable kebab deep_field (Some (inside FmChild None (Some (inside FmArgument None None None)) None)).
Proof.
  split; [|split; apply printable_checked; vm_compute; reflexivity].
  cbn [inside_printable inside]. split; [|split; [|exact I]].
  - exists FmChild. split; [reflexivity|]. split; [exact I|]. intros t [H|H]; discriminate.
  - exists FmArgument. split; [reflexivity|]. split; [exact I|]. intros t [H|H]; discriminate.
Qed.
