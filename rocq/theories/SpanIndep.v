(** The kind of spans does not influence parsing. *)

From Coq Require Import NArith PeanoNat List Bool String Lia.
From Verif Require Import Chars Ast Errors Chumsky Spans Grammar Param ParamGrammar.
Import ListNotations.

Section Function.
Context {S1 S2 : Type}.
Variable f : S1 -> S2.

Definition graph (a : S1) (b : S2) : Prop := f a = b.

Lemma graph_spanned {A} (a : spanned A S1) (b : spanned A S2) :
  rspanned graph eq a b -> spanned_map_span f a = b.
Proof.
  destruct a, b. intros [H K]. cbn in H, K. unfold spanned_map_span. cbn. rewrite H, K. reflexivity.
Qed.

Lemma graph_value v w : rel_value graph v w -> map_value_span f v = w.
Proof.
  destruct v as [ty l], w as [ty' l']. intros [H K]. cbn in H, K. unfold map_value_span. cbn.
  rewrite (graph_spanned _ _ K). destruct H as [|a b H]; cbn; [reflexivity|].
  rewrite (graph_spanned _ _ H). reflexivity.
Qed.

Lemma graph_node : forall n n', rel_node graph n n' -> map_node_span f n = n'.
Proof.
  fix IH 3. intros n n' H.
  destruct H as [ty ty' nm nm' args args' props props' ch ch' H1 H2 H3 H4 H5].
  cbn [map_node_span]. f_equal.
  - destruct H1 as [|a b H1]; cbn; [reflexivity|]. rewrite (graph_spanned _ _ H1). reflexivity.
  - apply graph_spanned. exact H2.
  - clear - H3. induction H3 as [|a b l l' H _ I]; cbn; [reflexivity|].
    rewrite (graph_value _ _ H), I. reflexivity.
  - clear - H4. induction H4 as [|[k v] [k' v'] l l' [H H'] _ I]; cbn; [reflexivity|].
    cbn in H, H'. rewrite (graph_value _ _ H'), (graph_spanned _ _ H), I. reflexivity.
  - destruct H5 as [|[s l] [s' l'] [H K]]; [reflexivity|]. cbn in H, K. rewrite H. do 2 f_equal.
    clear - IH K. induction K as [|[t m] [t' m'] l l' [H H'] _ I]; cbn; [reflexivity|].
    cbn in H, H'. rewrite H, (IH m m' H'), I. reflexivity.
Qed.

Lemma graph_doc d d' : rel_doc graph d d' -> map_doc_span f d = d'.
Proof.
  unfold map_doc_span. intros K. induction K as [|[t m] [t' m'] l l' [H H'] _ I]; cbn; [reflexivity|].
  unfold map_snode_span at 1. cbn in *. rewrite H, (graph_node m m' H'), I. reflexivity.
Qed.

Lemma graph_error e e' : rel_perr graph graph e e' -> map_perror_span f e = e'.
Proof. intros H. destruct H; cbn; unfold graph in *; subst; reflexivity. Qed.

Lemma graph_errors l l' : Forall2 (rel_perr graph graph) l l' -> map (map_perror_span f) l = l'.
Proof.
  induction 1 as [|a b l l' H _ I]; cbn; [reflexivity|]. rewrite (graph_error _ _ H), I. reflexivity.
Qed.

(** A result with its spans converted. *)
Definition project (r : parsed S1 (document S1)) : parsed S2 (document S2) :=
  match r with
  | Parsed d => Parsed (map_doc_span f d)
  | Rejected errs => Rejected (map (map_perror_span f) errs)
  | Panicked => Panicked
  end.

Lemma project_eq r : project r =
  match r with
  | Parsed d => Parsed (map_doc_span f d)
  | Rejected errs => Rejected (map (map_perror_span f) errs)
  | Panicked => Panicked
  end.
Proof. reflexivity. Qed.

Lemma graph_parsed r r' : rel_parsed graph graph (rel_doc graph) r r' -> r' = project r.
Proof.
  intros H. destruct H; cbn; [|f_equal..].
  - f_equal. symmetry. apply graph_doc. assumption.
  - symmetry. apply graph_errors. assumption.
Qed.
End Function.

Lemma line_env eoi eoi' : linespan_to_span eoi = eoi' ->
  @env_rel _ _ (linespan_env eoi) (span_env eoi') (graph linespan_to_span)
    (graph linespan_to_span) (graph linespan_to_span) (graph linespan_to_span).
Proof.
  intros H. unfold graph. constructor; intros; cbn in *; subst; try reflexivity.
Qed.

Lemma line_toks w t : forall tr, rel_toks (graph linespan_to_span)
  (line_tokens w tr t) (offset_tokens (lt_offset tr) t).
Proof.
  induction t as [|c t IH]; intros tr; cbn [line_tokens offset_tokens]; [constructor|].
  destruct (line_next_span w tr c) as [s tr'] eqn:N.
  assert (linespan_to_span s = Span (lt_offset tr) (lt_offset tr + utf8_len c)
          /\ lt_offset tr' = lt_offset tr + utf8_len c) as [H K].
  { unfold line_next_span in N.
    destruct (_ && _); [|destruct (is_newline_char c); [|destruct (N.eqb c 0x09)]];
      injection N as <- <-; split; reflexivity. }
  constructor; [split; [reflexivity|exact H]|]. rewrite <- K. apply IH.
Qed.

Lemma linespan_eoi_offset w t : lp_offset (linespan_eoi w t) = byte_len t.
Proof. unfold linespan_eoi. destruct (eoi_scan _ _ _ _). reflexivity. Qed.

Theorem span_independent w t :
  parse_ast_span t = project linespan_to_span (parse_ast_linespan w t).
Proof.
  apply graph_parsed. unfold parse_ast_span, parse_ast_linespan, span_stream, linespan_stream.
  eapply rel_run; [eapply rel_document|].
  - apply line_env. unfold linespan_to_span. cbn. rewrite !linespan_eoi_offset. reflexivity.
  - apply (line_toks w t (LineTracker 0 false 0 0)).
Qed.

Theorem span_independent_match w t :
  parse_ast_span t =
  match parse_ast_linespan w t with
  | Parsed d => Parsed (map_doc_span linespan_to_span d)
  | Rejected errs => Rejected (map (map_perror_span linespan_to_span) errs)
  | Panicked => Panicked
  end.
Proof.
  rewrite (span_independent w t). generalize (parse_ast_linespan w t). intros r. apply project_eq.
Qed.
