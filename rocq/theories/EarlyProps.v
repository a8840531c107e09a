(** No parse error is reported before the place where the text departs from every
    document. *)

From Coq Require Import NArith PeanoNat List Bool String Lia.
From Verif Require Import Chars Ast Errors Chumsky Spans Grammar Kdl KdlText Good SpanProps ErrSpec ErrAt ErrProps LaxSpec LaxCalc LaxNode LaxProps
  EarlySpec EarlyCalc EarlyDoc Coarse CoarseGrammar EarlyMild.
Import ListNotations.
Local Open Scope list_scope.

Lemma bare_offset t : forall n, bare (offset_tokens n t) = plain t.
Proof.
  induction t as [|c t IH]; intros n; [reflexivity|].
  unfold bare, plain in *. cbn [offset_tokens map]. f_equal. apply IH.
Qed.

Lemma bare_at pre t : bare (toks_at pre t) = plain t.
Proof. apply bare_offset. Qed.

Lemma chars_plain t : chars (plain t) = t.
Proof. unfold chars, plain. rewrite map_map. apply map_id. Qed.

Lemma chars_at pre t : chars (toks_at pre t) = t.
Proof. rewrite <- bare_chars, bare_at. apply chars_plain. Qed.

Lemma plain_app a b : plain (a ++ b) = plain a ++ plain b.
Proof. apply map_app. Qed.

Lemma plain_length t : List.length (plain t) = List.length t.
Proof. apply map_length. Qed.

Lemma runs_alike t :
  rel_res rel_doc (@document_ _ (ErrAt.E t) (toks_at [] t)) (@document_ _ unit_env (plain t)).
Proof. rewrite <- (bare_at [] t). apply rel_document. apply bare_rel. Qed.

(** The outcome of [rel_res], without the parsers. *)
Lemma alike_ok {A B} (RA : A -> B -> Prop) (r : presult span A) (r' : presult unit B) a x alt :
  rel_res RA r r' -> r_out r = Ok a x alt -> exists b x' alt', r_out r' = Ok b x' alt' /\ List.length x = List.length x'.
Proof.
  intros R O. destruct R as [es es' o o' c c' _ R]. cbn [r_out] in *. subst o.
  inversion R as [? b ? x' ? alt' _ X _|]. subst. exists b, x', alt'. split; [reflexivity|].
  exact (rel_toks_length _ _ X).
Qed.

Lemma alike_err {A B} (RA : A -> B -> Prop) (r : presult span A) (r' : presult unit B) e :
  rel_res RA r r' -> r_out r = Err e -> exists e', r_out r' = Err e' /\ l_rem e = l_rem e'.
Proof.
  intros R O. destruct R as [es es' o o' c c' _ R]. cbn [r_out] in *. subst o.
  inversion R as [|? e' X]. subst. exists e'. split; [reflexivity|]. destruct X. reflexivity.
Qed.

Lemma run_parsed {A} (p : Chumsky.parser span A) ts d : run p ts = Parsed d -> exists r alt, r_out (p ts) = Ok d r alt.
Proof.
  unfold run. destruct (r_crash (p ts)); [|discriminate]. destruct (r_out (p ts)) as [a r alt|e]; [|discriminate].
  destruct (r_errs (p ts)); [|discriminate]. intros X. inversion X. subst. exists r, alt. reflexivity.
Qed.

Definition advice (e : perror span) : Prop :=
  match e with EMessageHelp _ _ _ _ => True | _ => False end.

Lemma run_rejected {A} (p : Chumsky.parser span A) ts es : run p ts = Rejected es -> Forall help (r_errs (p ts)) ->
  Forall advice es \/ exists as_ e, es = as_ ++ [l_err e] /\ Forall advice as_ /\ r_out (p ts) = Err e.
Proof.
  unfold run. intros X H.
  assert (Forall advice (map l_err (r_errs (p ts)))) as H'.
  { apply Forall_forall. intros x I. apply in_map_iff in I. destruct I as (l & <- & I).
    rewrite Forall_forall in H. exact (H l I). }
  destruct (r_crash (p ts)); [|discriminate]. destruct (r_out (p ts)) as [a r alt|e].
  - left. destruct (r_errs (p ts)); [discriminate|]. inversion X. subst. exact H'.
  - right. inversion X. exists (map l_err (r_errs (p ts))), e. rewrite map_app. auto.
Qed.

Lemma end_out (ts : Chumsky.toks unit) : match r_out (@p_end unit unit_env ts) with Ok _ r _ => r = [] | Err _ => True end.
Proof. destruct ts; cbn; auto. Qed.

Lemma document_rest (ts : Chumsky.toks unit) d r alt : r_out (@document_ _ unit_env ts) = Ok d r alt -> r = [].
Proof.
  unfold document_, p_then_ignore, p_map, p_then, p_bind. generalize (@nodes unit unit_env ts).
  intros [es o c]. cbn [r_out]. destruct o as [a r1 alt1|e]; [|discriminate].
  assert (H := end_out r1). destruct (@p_end unit unit_env r1) as [es2 o2 c2]. cbn [r_out] in *.
  destruct o2 as [b r2 alt2|e]; [destruct (merge_alts alt1 alt2)|destruct (lmax_opt e alt1); discriminate].
  cbn [r_out fst]. intros X. inversion X. congruence.
Qed.

Lemma parse_is t : parse_ast_span t = run (@document_ _ (ErrAt.E t)) (toks_at [] t).
Proof. reflexivity. Qed.

(** In a tidy text, all errors but the last are those about identifiers as arguments. *)
Lemma parse_advice t es : tidy t -> parse_ast_span t = Rejected es ->
  Forall advice es \/ exists as_ e, es = as_ ++ [l_err e] /\ Forall advice as_
    /\ r_out (@document_ _ (ErrAt.E t) (toks_at [] t)) = Err e.
Proof.
  intros T H. rewrite parse_is in H.
  apply (run_rejected _ _ _ H). apply mild_document. rewrite chars_at. exact T.
Qed.

Lemma last_advice (l : list (perror span)) e as_ : Forall advice as_ -> l = as_ ++ [e] -> Forall advice (removelast l).
Proof. intros H ->. rewrite removelast_last. exact H. Qed.

Theorem others_advise t es e : tidy t -> parse_ast_span t = Rejected es -> In e (removelast es) ->
  exists l sp m h, e = EMessageHelp l sp m h.
Proof.
  intros T H I. assert (Forall advice (removelast es)) as X.
  { destruct (parse_advice t es T H) as [X|(as_ & x & E & X & _)]; [|exact (last_advice _ _ _ X E)].
    clear -X. destruct es as [|x es]; [constructor|]. apply Forall_forall. intros y Y. rewrite Forall_forall in X. apply X.
    rewrite (app_removelast_last x) by discriminate. apply in_or_app. left. exact Y. }
  rewrite Forall_forall in X. specialize (X e I). destruct e; try contradiction. eauto.
Qed.

Theorem not_early m q q' d es sp found exp : tidy (m ++ q) -> parse_ast_span (m ++ q') = Parsed d ->
  parse_ast_span (m ++ q) = Rejected es -> In (EUnexpected None sp found exp) es -> byte_len m <= sp_start sp.
Proof.
  intros T A H I. destruct (parse_advice _ _ T H) as [X|(as_ & e & -> & X & O)].
  { rewrite Forall_forall in X. destruct (X _ I). }
  apply in_app_or in I. destruct I as [I|[I|[]]]; [rewrite Forall_forall in X; destruct (X _ I)|].
  assert (l_rem e <= List.length q) as L.
  { destruct (alike_err _ _ _ _ (runs_alike _) O) as (e' & O' & ->).
    rewrite parse_is in A. destruct (run_parsed _ _ _ A) as (r & alt & A0).
    destruct (alike_ok _ _ _ _ _ _ (runs_alike _) A0) as (b & x' & alt' & A' & _).
    assert (x' = []) as -> by exact (document_rest _ _ _ _ A'). rewrite plain_app in O', A'.
    rewrite <- (plain_length q). refine (document_early (plain m) (plain q) (plain q') e' b alt' _ O' A').
    rewrite <- plain_app, chars_plain. exact T. }
  destruct (at_document (m ++ q)) as [_ G]. rewrite O in G. destruct G as (P & q1 & E & R & _ & _ & G).
  rewrite I in G. destruct G as [_ G]. destruct (G eq_refl) as [-> _].
  destruct (split_either _ _ _ _ E) as [(l & Y)|(l & _ & ->)]; [|rewrite byte_len_app; lia].
  subst m. rewrite <- app_assoc in E. apply app_inv_head in E. rewrite R, <- E, app_length in L.
  destruct l; [rewrite app_nil_r; lia|]. cbn in L. lia.
Qed.

Theorem line_not_early w m q q' d es sp found exp : tidy (m ++ q) -> parse_ast_span (m ++ q') = Parsed d ->
  parse_ast_linespan w (m ++ q) = Rejected es -> In (EUnexpected None sp found exp) es ->
  byte_len m <= sp_start (linespan_to_span sp).
Proof.
  intros T A H I. apply line_rejected in H. apply (not_early m q q' d _ _ found exp T A H).
  apply (in_map (map_perror_span linespan_to_span)) in I. exact I.
Qed.

(** With C68: the text before the error begins a document, and goes as far as that of
    any document does. *)
Theorem error_pinned t es sp found exp : tidy t -> parse_ast_span t = Rejected es ->
  In (EUnexpected None sp found exp) es ->
  exists p, starts_after t sp p /\ beginning p
  /\ forall m q q' d, t = m ++ q -> parse_ast_span (m ++ q') = Parsed d -> exists v, p = m ++ v.
Proof.
  intros T H I. destruct (errors_follow t es _ sp H I) as (p & S & B); [left; reflexivity|].
  exists p. split; [exact S|]. split; [exact B|]. intros m q q' d -> A.
  assert (byte_len m <= sp_start sp) as L by exact (not_early m q q' d es sp found exp T A H I).
  destruct S as [[s S] S2]. destruct (split_either _ _ _ _ S) as [(l & ->)|(l & N & ->)].
  - rewrite S2, byte_len_app in L. destruct l as [|c l]; [exists []; rewrite !app_nil_r; reflexivity|].
    assert (0 < byte_len (c :: l)) by (apply byte_len_pos; discriminate). lia.
  - exists l. reflexivity.
Qed.
