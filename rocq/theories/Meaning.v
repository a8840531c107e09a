(** Parsing gives what the text means. *)

From Coq Require Import NArith PeanoNat List Bool String Lia.
From Verif Require Import Chars Ast Errors Chumsky Spans Grammar DocSafe Kdl KdlText Good
  LexLit PropMap Items Nodes NodesComplete Erase.
Import ListNotations.
Local Open Scope list_scope.

Section Run.
Context {Sp : Type} {E : env Sp}.

Lemma run_parsed {A} (p : parser Sp A) ts a : run p ts = Parsed a ->
  exists rest, good (p ts) a rest.
Proof.
  unfold run. destruct (r_crash (p ts)) eqn:C; [|discriminate].
  destruct (r_out (p ts)) eqn:O; [|discriminate].
  destruct (r_errs (p ts)) eqn:R; [|discriminate]. intros H. inversion H; subst.
  exists rest. split; [split|]; eauto.
Qed.

Lemma run_succ {A} (p : parser Sp A) ts a rest : r_crash (p ts) = [] ->
  succ (p ts) a rest -> run p ts = Parsed a.
Proof. intros C [R [alt O]]. unfold run. rewrite C, O, R. reflexivity. Qed.

Lemma run_document_sound ts d : run (@document_ Sp E) ts = Parsed d -> document_at false ts d.
Proof.
  intros H. apply run_parsed in H. destruct H as [rest G]. apply document_sound in G. apply G.
Qed.

Lemma run_document_complete ts d : document_at true ts d -> run (@document_ Sp E) ts = Parsed d.
Proof.
  intros H. eapply run_succ; [apply document_safe|]. apply document_complete, H.
Qed.

End Run.

Lemma offset_chars t : forall off, chars (offset_tokens off t) = t.
Proof. induction t as [|c t IH]; intros off; [reflexivity|]. cbn. f_equal. apply IH. Qed.

Lemma line_chars w t : forall tr, chars (line_tokens w tr t) = t.
Proof.
  induction t as [|c t IH]; intros tr; [reflexivity|]. cbn [line_tokens].
  destruct (line_next_span w tr c) as [sp tr']. cbn. f_equal. apply IH.
Qed.

Lemma plain_chars t : chars (plain t) = t.
Proof. unfold chars, plain. rewrite map_map. cbn. apply map_id. Qed.

Lemma plain_app a b : plain (a ++ b) = plain a ++ plain b.
Proof. apply map_app. Qed.

Lemma unit_toks (u : toks unit) : u = plain (chars u).
Proof.
  unfold plain, chars. rewrite map_map. symmetry. rewrite <- (map_id u) at 2.
  apply map_ext. intros [c []]. reflexivity.
Qed.

Lemma mtoks_unit {Sp} (s : toks Sp) : mtoks (fun _ => tt) s = plain (chars s).
Proof. unfold mtoks, plain, chars, mtok. rewrite map_map. reflexivity. Qed.

Lemma erase_document {Sp} {E : env Sp} strict s d : @document_at Sp E strict s d ->
  means strict (chars s) (without_spans d).
Proof.
  intros H. unfold means. rewrite <- mtoks_unit.
  apply (@document_map Sp unit E unit_env (fun _ => tt)); [reflexivity|reflexivity|exact H].
Qed.

Lemma lift_document {Sp} {E : env Sp} strict (s : toks Sp) d : means strict (chars s) d ->
  exists d', @document_at Sp E strict s d' /\ without_spans d' = d.
Proof.
  intros H. apply (document_lift strict _ _ H s). rewrite plain_chars. reflexivity.
Qed.

Lemma parse_span_eq t : exists ts eoi, span_stream t = (ts, eoi)
  /\ parse_ast_span t = run (@document_ span (span_env eoi)) ts.
Proof.
  unfold parse_ast_span. destruct (span_stream t) as [ts eoi]. exists ts, eoi. split; reflexivity.
Qed.

Lemma parse_linespan_eq w t : exists ts eoi, linespan_stream w t = (ts, eoi)
  /\ parse_ast_linespan w t = run (@document_ linespan (linespan_env eoi)) ts.
Proof.
  unfold parse_ast_linespan. destruct (linespan_stream w t) as [ts eoi]. exists ts, eoi.
  split; reflexivity.
Qed.

Theorem parse_span_tokens t d : parse_ast_span t = Parsed d ->
  @document_at _ (span_env (Span (byte_len t) (byte_len t))) false (offset_tokens 0 t) d.
Proof.
  destruct (parse_span_eq t) as [ts [eoi [S ->]]]. unfold span_stream in S.
  injection S as <- <-. apply run_document_sound.
Qed.

Theorem parse_linespan_tokens w t d : parse_ast_linespan w t = Parsed d ->
  @document_at _ (linespan_env (snd (linespan_stream w t))) false
    (fst (linespan_stream w t)) d.
Proof.
  destruct (parse_linespan_eq w t) as [ts [eoi [-> ->]]]. apply run_document_sound.
Qed.

Theorem parse_span_sound t d : parse_ast_span t = Parsed d -> means false t (without_spans d).
Proof.
  intros H. apply parse_span_tokens, erase_document in H. rewrite offset_chars in H. exact H.
Qed.

Theorem parse_linespan_sound w t d : parse_ast_linespan w t = Parsed d ->
  means false t (without_spans d).
Proof.
  intros H. apply parse_linespan_tokens, erase_document in H.
  unfold linespan_stream in H. cbn [fst] in H. rewrite line_chars in H. exact H.
Qed.

Theorem parse_span_complete t d : means true t d ->
  exists d', parse_ast_span t = Parsed d' /\ without_spans d' = d.
Proof.
  intros H. rewrite <- (offset_chars t 0) in H.
  apply (lift_document (E := span_env (Span (byte_len t) (byte_len t)))) in H.
  destruct H as [d' [H X]]. exists d'. split; [|exact X].
  destruct (parse_span_eq t) as [ts [eoi [S ->]]]. unfold span_stream in S.
  injection S as <- <-. apply run_document_complete, H.
Qed.

Theorem parse_linespan_complete w t d : means true t d ->
  exists d', parse_ast_linespan w t = Parsed d' /\ without_spans d' = d.
Proof.
  intros H. destruct (parse_linespan_eq w t) as [ts [eoi [S ->]]].
  assert (C : chars ts = t).
  { unfold linespan_stream in S. injection S as <- _. apply line_chars. }
  rewrite <- C in H. apply (lift_document (E := linespan_env eoi)) in H.
  destruct H as [d' [H X]]. exists d'. split; [|exact X]. apply run_document_complete, H.
Qed.

Lemma means_unique t d1 d2 : means true t d1 -> means true t d2 -> d1 = d2.
Proof.
  intros H1 H2. apply parse_span_complete in H1, H2.
  destruct H1 as [e1 [P1 <-]], H2 as [e2 [P2 <-]]. congruence.
Qed.
