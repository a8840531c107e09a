(** Consequences for the errors of [parse_ast]. *)

From Coq Require Import NArith PeanoNat List Bool String Lia.
From Verif Require Import Chars Ast Errors Chumsky Spans Grammar SpanProps SpanIndep ErrSpec ErrGrammar.
Import ListNotations.
Local Open Scope list_scope.

Lemma covers_end t : covers t (end_of t) [].
Proof. exists t, []. rewrite !app_nil_r. auto. Qed.

Lemma found_covers t sp f : found_at t sp f -> exists s, covers t sp s.
Proof.
  intros H. destruct f as [c|s|s|n|n|].
  - exists [c]. exact H.
  - exists s. exact H.
  - destruct H as [s' [H _]]. exists s'. exact H.
  - destruct H as [s' [H _]]. exists s'. exact H.
  - destruct H as [s' [H _]]. exists s'. exact H.
  - cbn in H. rewrite H. exists []. apply covers_end.
Qed.

Lemma right_spans t e : error_right t e -> Forall (fun sp => exists s, covers t sp s) (perror_spans e).
Proof.
  destruct e; cbn [error_right perror_spans]; intros H.
  - destruct H as [H _]. constructor; [eapply found_covers; exact H|constructor].
  - destruct H as ((p & o & c & q & _ & H & _) & -> & _). constructor; [exists o, p, q; exact H|]. constructor; [|constructor].
    exists []. apply covers_end.
  - destruct H as [[s [H _]] _]. constructor; [eauto|constructor].
  - destruct H as [[s [H _]] _]. constructor; [eauto|constructor].
Qed.

Lemma error_spans t errs : parse_ast_span t = Rejected errs ->
  Forall (fun e => Forall (fun sp => exists s, covers t sp s) (perror_spans e)) errs.
Proof.
  intros H. eapply Forall_impl; [|exact (parse_errors_right t errs H)]. intros e. apply right_spans.
Qed.

Lemma covers_bounds t sp s : covers t sp s -> sp_start sp <= sp_end sp <= byte_len t.
Proof. intros [p [q [-> ->]]]. cbn [sp_start sp_end]. rewrite !byte_len_app. lia. Qed.

Lemma error_bounds t errs : parse_ast_span t = Rejected errs ->
  Forall (fun e => Forall (fun sp => sp_start sp <= sp_end sp <= byte_len t) (perror_spans e)) errs.
Proof.
  intros H. eapply Forall_impl; [|exact (error_spans t errs H)]. intros e K.
  eapply Forall_impl; [|exact K]. intros sp [s X]. eapply covers_bounds. exact X.
Qed.

Lemma perror_spans_map {S1 S2} (f : S1 -> S2) e : perror_spans (map_perror_span f e) = map f (perror_spans e).
Proof. destruct e; reflexivity. Qed.

Lemma line_rejected width t errs : parse_ast_linespan width t = Rejected errs ->
  parse_ast_span t = Rejected (map (map_perror_span linespan_to_span) errs).
Proof. intros H. rewrite (span_independent_match width t), H. reflexivity. Qed.

Lemma line_error_spans width t errs : parse_ast_linespan width t = Rejected errs ->
  Forall (fun e => Forall (fun sp => exists s, covers t (linespan_to_span sp) s) (perror_spans e)) errs.
Proof.
  intros H. pose proof (error_spans t _ (line_rejected width t errs H)) as K.
  rewrite Forall_map in K. eapply Forall_impl; [|exact K]. intros e X. cbn beta in X.
  rewrite perror_spans_map, Forall_map in X. exact X.
Qed.

Lemma unclosed_errors t errs : parse_ast_span t = Rejected errs ->
  forall what at_open open at_end close found,
  In (EUnclosed what at_open open at_end close found) errs ->
  (exists p o c q, delimiters what open o close c /\ between t at_open p o q
     /\ ~ closed_by t open (p ++ o) q)
  /\ at_end = end_of t /\ found = TEoi.
Proof.
  intros H what at_open open at_end close found I. pose proof (parse_errors_right t errs H) as K.
  rewrite Forall_forall in K. exact (K _ I).
Qed.

Lemma unexpected_errors t errs : parse_ast_span t = Rejected errs ->
  forall label sp found expected, In (EUnexpected label sp found expected) errs -> found_at t sp found.
Proof.
  intros H label sp found expected I. pose proof (parse_errors_right t errs H) as K.
  rewrite Forall_forall in K. exact (proj1 (K _ I)).
Qed.

Lemma expected_tidy t errs : parse_ast_span t = Rejected errs ->
  forall label sp found expected, In (EUnexpected label sp found expected) errs -> tidy expected.
Proof.
  intros H label sp found expected I. pose proof (parse_errors_right t errs H) as K.
  rewrite Forall_forall in K. exact (proj1 (proj2 (K _ I))).
Qed.

Lemma label_errors t errs : parse_ast_span t = Rejected errs ->
  forall label sp found expected, In (EUnexpected label sp found expected) errs ->
  labelled_at t sp label found.
Proof.
  intros H label sp found expected I. pose proof (parse_errors_right t errs H) as K.
  rewrite Forall_forall in K. exact (proj2 (proj2 (K _ I))).
Qed.

Lemma message_errors t errs : parse_ast_span t = Rejected errs ->
  forall label sp m, In (EMessage label sp m) errs ->
  (exists s, covers t sp s /\ s <> []) /\ message_at t sp label m.
Proof.
  intros H label sp m I. pose proof (parse_errors_right t errs H) as K.
  rewrite Forall_forall in K. exact (K _ I).
Qed.

Lemma message_help_errors t errs : parse_ast_span t = Rejected errs ->
  forall label sp m h, In (EMessageHelp label sp m h) errs ->
  (exists s, covers t sp s /\ s <> []) /\ helped_at t sp label m.
Proof.
  intros H label sp m h I. pose proof (parse_errors_right t errs H) as K.
  rewrite Forall_forall in K. exact (K _ I).
Qed.

(** A rejection carries an error. *)
Lemma run_some {A} (p : parser span A) ts errs : run p ts = Rejected errs -> errs <> [].
Proof.
  unfold run.
  destruct (r_crash _); [|discriminate]. destruct (r_out _).
  - destruct (r_errs _); [discriminate|]. intros [= <-]. discriminate.
  - intros [= <-] X. apply map_eq_nil in X. apply app_eq_nil in X. destruct X. discriminate.
Qed.

Lemma rejected_some t errs : parse_ast_span t = Rejected errs -> errs <> [].
Proof. exact (run_some _ _ errs). Qed.
