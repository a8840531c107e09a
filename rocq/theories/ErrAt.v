(** Where the errors of a parser lie, for each combinator.

    [okp C Q p]: when [p] runs in the text [t] after a text that satisfies [C],
    every error it gives is right, lies at or after its start, and if it is an
    unexpected end of input lies at the end; and an output satisfies [Q] together
    with the text that was consumed. *)

From Coq Require Import NArith PeanoNat List Bool String Lia.
From Verif Require Import Chars Ast Errors Chumsky Spans Grammar Safe Kdl SpanProps ErrSpec TokenSet.
Import ListNotations.
Local Open Scope list_scope.

Section ErrAt.
Variable t : text.

Local Instance E : env span := span_env (end_of t).

Notation parser := (parser span).
Notation located := (located span).

Definition toks_at (pre q : text) : toks span := offset_tokens (byte_len pre) q.

Definition gl (q : text) (l : located) : Prop :=
  l_rem l <= List.length q /\ (is_eoi_error (l_err l) = true -> l_rem l = 0)
  /\ error_right t (l_err l).

Definition glo (q : text) (o : option located) : Prop :=
  match o with Some l => gl q l | None => True end.

Definition ok_out {A} (Q : text -> A -> Prop) (pre q : text) (o : outcome span A) : Prop :=
  match o with
  | Ok a rest alt => exists m q', q = m ++ q' /\ rest = toks_at (pre ++ m) q' /\ glo q alt /\ Q m a
  | Err e => gl q e
  end.

Definition ok_res {A} (Q : text -> A -> Prop) (pre q : text) (r : presult span A) : Prop :=
  Forall (gl q) (r_errs r) /\ ok_out Q pre q (r_out r).

Definition okp {A} (C : text -> Prop) (Q : text -> A -> Prop) (p : parser A) : Prop :=
  forall pre q, t = pre ++ q -> C pre -> ok_res Q pre q (p (toks_at pre q)).

Definition anyc : text -> Prop := fun _ => True.
Definition anyq {A} : text -> A -> Prop := fun _ _ => True.

Lemma ok_weaken {A} (C C' : text -> Prop) (Q Q' : text -> A -> Prop) p :
  (forall pre, C' pre -> C pre) -> (forall m a, Q m a -> Q' m a) -> okp C Q p -> okp C' Q' p.
Proof.
  intros HC HQ P pre q T H. destruct (P pre q T (HC _ H)) as [H1 H2]. split; [exact H1|].
  destruct (r_out (p (toks_at pre q))) as [a rest alt|e]; [|exact H2].
  destruct H2 as [m [q' [X [Y [Z W]]]]]. exists m, q'. auto.
Qed.

Lemma ok_any {A} (C : text -> Prop) (Q : text -> A -> Prop) p : okp anyc Q p -> okp C anyq p.
Proof. apply ok_weaken; unfold anyc, anyq; auto. Qed.

Lemma ok_drop {A} (C : text -> Prop) (Q : text -> A -> Prop) p : okp C Q p -> okp C anyq p.
Proof. apply ok_weaken; unfold anyq; auto. Qed.

(** ** Errors *)

Lemma gl_weaken q q' l : gl q l -> List.length q <= List.length q' -> gl q' l.
Proof. intros [H [K L]] X. repeat split; auto. lia. Qed.

Lemma glo_weaken q q' l : glo q l -> List.length q <= List.length q' -> glo q' l.
Proof. destruct l; [apply gl_weaken|auto]. Qed.

Lemma gl_all_weaken q q' l : Forall (gl q) l -> List.length q <= List.length q' -> Forall (gl q') l.
Proof. intros H L. eapply Forall_impl; [|exact H]. intros a X. eapply gl_weaken; eassumption. Qed.

Lemma merge_right a b e : merge a b = Some e -> error_right t a -> error_right t b ->
  error_right t e /\ (is_eoi_error e = true -> is_eoi_error a = true).
Proof.
  intros M A B. destruct a, b; cbn in M; inversion M; subst; split; auto; try discriminate.
  destruct A as (A1 & A2 & A3), B as (_ & (_ & B2) & _). repeat split; [exact A1|apply tidy_extend; assumption..|exact A3].
Qed.

Lemma lmax_ok q a b e c : lmax a b = (e, c) -> gl q a -> gl q b -> gl q e.
Proof.
  intros M A B. unfold lmax in M. destruct (Nat.compare (l_rem a) (l_rem b)).
  - destruct (merge (l_err a) (l_err b)) as [x|] eqn:X; inversion M; subst; [|exact A].
    destruct A as [A1 [A2 A3]], B as [B1 [B2 B3]].
    destruct (merge_right _ _ _ X A3 B3) as [R1 R2]. repeat split; auto.
  - inversion M; subst. exact A.
  - inversion M; subst. exact B.
Qed.

Lemma lmax_opt_ok q a b e c : lmax_opt a b = (e, c) -> gl q a -> glo q b -> gl q e.
Proof.
  intros M A B. destruct b as [b|]; cbn in M; [eapply lmax_ok; eassumption|].
  inversion M; subst. exact A.
Qed.

Lemma merge_alts_ok q a b e c : merge_alts a b = (e, c) -> glo q a -> glo q b -> glo q e.
Proof.
  intros M A B. destruct a as [a|], b as [b|]; cbn in M; try (inversion M; subst; assumption).
  destruct (lmax b a) as [m d] eqn:L. inversion M; subst. cbn. eapply lmax_ok; eassumption.
Qed.

Lemma merge_alts_list_ok q l : Forall (gl q) l -> forall a e c, merge_alts_list a l = (e, c) ->
  glo q a -> glo q e.
Proof.
  induction 1 as [|b l B _ IH]; intros a e c M A; cbn [merge_alts_list] in M.
  - inversion M; subst. exact A.
  - destruct (merge_alts a (Some b)) as [m d] eqn:X.
    destruct (merge_alts_list m l) as [m' d'] eqn:Y. inversion M; subst.
    eapply IH; [exact Y|]. eapply merge_alts_ok; [exact X|exact A|exact B].
Qed.

(** ** Spans *)

Lemma toks_len pre q : List.length (toks_at pre q) = List.length q.
Proof.
  unfold toks_at. generalize (byte_len pre). induction q as [|c q IH]; intros n; cbn; [reflexivity|].
  rewrite IH. reflexivity.
Qed.

Lemma toks_app pre m q : toks_at pre (m ++ q) = toks_at pre m ++ toks_at (pre ++ m) q.
Proof.
  unfold toks_at. rewrite byte_len_app. generalize (byte_len pre).
  induction m as [|c m IH]; intros n; cbn [app offset_tokens byte_len].
  - rewrite Nat.add_0_r. reflexivity.
  - rewrite IH. rewrite Nat.add_assoc. reflexivity.
Qed.

Lemma toks_cons pre c q : toks_at pre (c :: q)
  = (c, Span (byte_len pre) (byte_len (pre ++ [c]))) :: toks_at (pre ++ [c]) q.
Proof.
  unfold toks_at. cbn [offset_tokens]. rewrite byte_len_app. cbn [byte_len]. rewrite Nat.add_0_r.
  reflexivity.
Qed.

Lemma toks_nth q : forall pre k, k < List.length q -> exists c s,
  nth_error (toks_at pre q) k = Some (c, Span s (byte_len (pre ++ firstn (S k) q))).
Proof.
  induction q as [|c q IH]; intros pre k K; [cbn in K; lia|]. rewrite toks_cons.
  destruct k as [|k]; cbn [nth_error firstn].
  - eexists; eexists. reflexivity.
  - cbn [List.length] in K. destruct (IH (pre ++ [c]) k) as [d [s H]]; [lia|].
    rewrite H, <- app_assoc. eexists; eexists. reflexivity.
Qed.

(** What the parser has passed when [rem] characters remain; one character if it
    has not moved. *)
Definition passed (q : text) (rem : nat) : text := firstn (Nat.max 1 (List.length q - rem)) q.

Lemma since_eq pre q rem : t = pre ++ q ->
  span_since (toks_at pre q) rem = Span (byte_len pre) (byte_len (pre ++ passed q rem)).
Proof.
  intros T. unfold span_since, passed. rewrite toks_len. destruct q as [|c q].
  - rewrite app_nil_r in T. rewrite firstn_nil, app_nil_r. rewrite <- T.
    cbn [toks_at offset_tokens List.length Nat.sub nth_error]. reflexivity.
  - destruct (toks_nth (c :: q) pre (List.length (c :: q) - rem - 1)) as [d [s H]];
      [cbn [List.length]; lia|].
    rewrite H. rewrite toks_cons. cbn [sp_join E span_env sp_start sp_end]. do 4 f_equal. lia.
Qed.

Lemma since_covers pre q rem : t = pre ++ q ->
  covers t (span_since (toks_at pre q) rem) (passed q rem).
Proof.
  intros T. rewrite (since_eq pre q rem T).
  exists pre, (skipn (Nat.max 1 (List.length q - rem)) q). unfold passed. rewrite firstn_skipn. auto.
Qed.

Lemma passed_app m q' : m <> [] -> passed (m ++ q') (List.length q') = m.
Proof.
  intros N. unfold passed. rewrite app_length.
  replace (Nat.max 1 (List.length m + List.length q' - List.length q')) with (List.length m).
  - rewrite firstn_app, firstn_all, Nat.sub_diag, app_nil_r. reflexivity.
  - destruct m; [congruence|cbn [List.length]; lia].
Qed.

Lemma passed_zero q : passed q 0 = q.
Proof.
  unfold passed. destruct q; [destruct (Nat.max _ _); reflexivity|]. apply firstn_all2.
  cbn [List.length]. lia.
Qed.

Lemma passed_ne q rem : q <> [] -> passed q rem <> [].
Proof.
  intros N. unfold passed. destruct q as [|c q]; [congruence|].
  replace (Nat.max 1 (List.length (c :: q) - rem)) with (S (Nat.max 1 (List.length (c :: q) - rem) - 1)) by lia.
  discriminate.
Qed.

Lemma unexpected_ok pre q x : t = pre ++ q -> gl q (unexpected (toks_at pre q) x).
Proof.
  intros T. destruct q as [|c q].
  - split; [|split; [|split; [|split]]]; [cbn; auto|cbn; auto|reflexivity|apply tidy_of|].
    apply La_end. reflexivity.
  - rewrite toks_cons. cbn [unexpected]. split; [|split; [|split; [|split]]]; cbn [l_rem l_err].
    + cbn [List.length]. rewrite toks_len. lia.
    + discriminate.
    + exists pre, q. split; [exact T|reflexivity].
    + apply tidy_of.
    + apply La_char. exists pre, q. split; [exact T|reflexivity].
Qed.

(** ** Combinators *)

Lemma ok_fail {A} (Q : text -> A -> Prop) pre q e : gl q e -> ok_res Q pre q (fail e).
Proof. intros H. split; [constructor|exact H]. Qed.

Lemma ok_one {A} (Q : text -> A -> Prop) pre c q a : Q [c] a ->
  ok_res Q pre (c :: q) (Res [] (Ok a (toks_at (pre ++ [c]) q) None) []).
Proof.
  intros H. split; [constructor|]. exists [c], q. cbn. auto.
Qed.

Lemma ok_filter C f : okp C (fun m c => m = [c] /\ f c = true) (p_filter f).
Proof.
  intros pre q T _. destruct q as [|c q].
  - apply ok_fail, unexpected_ok, T.
  - rewrite toks_cons. cbn [p_filter]. destruct (f c) eqn:F.
    + apply ok_one. auto.
    + rewrite <- toks_cons. apply ok_fail, unexpected_ok, T.
Qed.

Lemma ok_none_of C x : okp C anyq (p_none_of x).
Proof. eapply ok_drop. apply ok_filter. Qed.

Lemma ok_just C x : okp C (fun m c => m = [x] /\ c = x) (p_just x).
Proof.
  intros pre q T _. destruct q as [|c q].
  - apply ok_fail, unexpected_ok, T.
  - rewrite toks_cons. cbn [p_just]. destruct (N.eqb_spec c x) as [->|F].
    + apply ok_one. auto.
    + rewrite <- toks_cons. apply ok_fail, unexpected_ok, T.
Qed.

Lemma ok_just_str C s : okp C (fun m _ => m = s) (p_just_str s).
Proof.
  revert C. induction s as [|x s IH]; intros C pre q T HC; cbn [p_just_str].
  - split; [constructor|]. exists [], q. rewrite app_nil_r. cbn. auto.
  - destruct q as [|c q].
    + apply ok_fail, unexpected_ok, T.
    + rewrite toks_cons. destruct (N.eqb_spec c x) as [->|F].
      * assert (T' : t = (pre ++ [x]) ++ q) by (rewrite <- app_assoc; exact T).
        destruct (IH anyc (pre ++ [x]) q T' I) as [H1 H2]. split.
        -- eapply gl_all_weaken; [exact H1|]. cbn. lia.
        -- destruct (r_out (p_just_str s (toks_at (pre ++ [x]) q))) as [a rest alt|e].
           ++ destruct H2 as [m [q' [X [Y [Z W]]]]]. exists (x :: m), q'. subst m q rest.
              split; [reflexivity|]. split; [rewrite <- app_assoc; reflexivity|]. split; [|reflexivity].
              eapply glo_weaken; [exact Z|]. cbn. lia.
           ++ eapply gl_weaken; [exact H2|]. cbn. lia.
      * rewrite <- toks_cons. apply ok_fail, unexpected_ok, T.
Qed.

Lemma ok_end C : okp C anyq p_end.
Proof.
  intros pre q T _. destruct q as [|c q].
  - split; [constructor|]. exists [], []. cbn. unfold anyq. auto.
  - rewrite toks_cons. cbn [p_end]. rewrite <- toks_cons. apply ok_fail, unexpected_ok, T.
Qed.

Lemma ok_filter_map {A} (C : text -> Prop) (Q : text -> A -> Prop) f :
  (forall pre c q, t = pre ++ c :: q -> C pre -> match f (Span (byte_len pre) (byte_len (pre ++ [c]))) c with
     | inl a => Q [c] a
     | inr e => error_right t e /\ is_eoi_error e = false end) ->
  okp C Q (p_filter_map f).
Proof.
  intros F pre q T HC. destruct q as [|c q].
  - apply ok_fail, unexpected_ok, T.
  - rewrite toks_cons. cbn [p_filter_map].
    specialize (F _ _ _ T HC). destruct (f _ c) as [a|e].
    + apply ok_one. exact F.
    + apply ok_fail. rewrite <- toks_cons, toks_len. destruct F as [F1 F2].
      split; [cbn; lia|]. split; [cbn; congruence|exact F1].
Qed.

Lemma ok_map {A B} C (Q : text -> A -> Prop) (Q' : text -> B -> Prop) f p :
  (forall m a, Q m a -> Q' m (f a)) -> okp C Q p -> okp C Q' (p_map f p).
Proof.
  intros F P pre q T H. destruct (P pre q T H) as [H1 H2]. unfold p_map. split; [exact H1|].
  cbn [r_out]. destruct (r_out (p (toks_at pre q))) as [a rest alt|e]; [|exact H2].
  destruct H2 as [m [q' [X [Y [Z W]]]]]. exists m, q'. auto.
Qed.

Lemma ok_map_any {A B} C (f : A -> B) p : okp C anyq p -> okp C anyq (p_map f p).
Proof. apply ok_map. unfold anyq. auto. Qed.

Lemma ok_ignored {A} C (p : parser A) : okp C anyq p -> okp C anyq (p_ignored p).
Proof. apply ok_map_any. Qed.

Lemma ok_map_with_span {A B} C (Q : text -> A -> Prop) (Q' : text -> B -> Prop) f p :
  (forall m a sp, Q m a -> m <> [] -> covers t sp m -> Q' m (f a sp)) ->
  (forall m a, Q m a -> m <> []) ->
  okp C Q p -> okp C Q' (p_map_with_span f p).
Proof.
  intros F N P pre q T H. destruct (P pre q T H) as [H1 H2]. unfold p_map_with_span. split; [exact H1|].
  cbn [r_out]. destruct (r_out (p (toks_at pre q))) as [a rest alt|e]; [|exact H2].
  destruct H2 as [m [q' [X [Y [Z W]]]]]. exists m, q'. split; [exact X|]. split; [exact Y|].
  split; [exact Z|]. pose proof (N _ _ W) as Ne. apply F; auto. subst rest. rewrite toks_len.
  pose proof (since_covers pre q (List.length q') T) as K. rewrite X in K at 2.
  rewrite passed_app in K by exact Ne. exact K.
Qed.

Lemma ok_map_with_span_any {A B} C (f : A -> span -> B) p : okp C anyq p ->
  okp C anyq (p_map_with_span f p).
Proof.
  intros P pre q T H. destruct (P pre q T H) as [H1 H2]. unfold p_map_with_span. split; [exact H1|].
  cbn [r_out]. destruct (r_out (p (toks_at pre q))) as [a rest alt|e]; [|exact H2].
  destruct H2 as [m [q' [X [Y [Z W]]]]]. exists m, q'. unfold anyq. auto.
Qed.

Lemma ok_map_err {A} C (Q : text -> A -> Prop) f p :
  (forall e, error_right t e -> error_right t (f e)) ->
  (forall e, is_eoi_error (f e) = true -> is_eoi_error e = true) ->
  okp C Q p -> okp C Q (p_map_err f p).
Proof.
  intros F G P pre q T H. destruct (P pre q T H) as [H1 H2]. unfold p_map_err. split; [exact H1|].
  cbn [r_out]. destruct (r_out (p (toks_at pre q))) as [a rest alt|e]; [exact H2|].
  destruct H2 as [X [Y Z]]. repeat split; cbn; auto.
Qed.

Lemma ok_map_err_with_span {A} (C : text -> Prop) (Q : text -> A -> Prop) f (p : parser A) :
  (forall pre q e e', t = pre ++ q -> C pre -> r_out (p (toks_at pre q)) = Err e -> gl q e ->
     f (l_err e) (span_since (toks_at pre q) (l_rem e)) = Some e' ->
     error_right t e' /\ (is_eoi_error e' = true -> l_rem e = 0)) ->
  okp C Q p -> okp C Q (p_map_err_with_span f p).
Proof.
  intros F P pre q T H. destruct (P pre q T H) as [H1 H2]. unfold p_map_err_with_span.
  destruct (r_out (p (toks_at pre q))) as [a rest alt|e] eqn:O.
  - split; [exact H1|]. rewrite O. exact H2.
  - destruct (f (l_err e) (span_since (toks_at pre q) (l_rem e))) as [e'|] eqn:X.
    + destruct (F pre q e e' T H O H2 X) as [G1 G2]. split; [exact H1|].
      destruct H2 as [H2 _]. repeat split; cbn; auto.
    + split; [exact H1|exact H2].
Qed.

Lemma ok_try_map_at {A B} (C : text -> Prop) (Q : text -> A -> Prop) (Q' : text -> B -> Prop) f p :
  (forall pre m q a, t = pre ++ m ++ q -> C pre -> Q m a -> m <> [] ->
     match f a (Span (byte_len pre) (byte_len (pre ++ m))) with
     | inl b => Q' m b
     | inr e => error_right t e /\ is_eoi_error e = false
     end) ->
  (forall m a, Q m a -> m <> []) ->
  okp C Q p -> okp C Q' (p_try_map f p).
Proof.
  intros F N P pre q T H. destruct (P pre q T H) as [H1 H2]. unfold p_try_map. split; [exact H1|].
  cbn [r_out]. destruct (r_out (p (toks_at pre q))) as [a rest alt|e]; [|exact H2].
  destruct H2 as [m [q' [X [Y [Z W]]]]].
  pose proof (N _ _ W) as Ne. subst rest q. rewrite toks_len, (since_eq pre _ _ T), passed_app by exact Ne.
  specialize (F pre m q' a T H W Ne).
  destruct (f a _) as [b|e].
  - exists m, q'. auto.
  - destruct F as [F1 F2]. split; [|split; cbn; [congruence|exact F1]].
    cbn. rewrite app_length. lia.
Qed.

Lemma ok_try_map {A B} C (Q : text -> A -> Prop) (Q' : text -> B -> Prop) f p :
  (forall m a sp, Q m a -> m <> [] -> covers t sp m ->
     match f a sp with
     | inl b => Q' m b
     | inr e => error_right t e /\ is_eoi_error e = false
     end) ->
  (forall m a, Q m a -> m <> []) ->
  okp C Q p -> okp C Q' (p_try_map f p).
Proof.
  intros F. apply ok_try_map_at. intros pre m q a T _ W Ne. apply F; [exact W|exact Ne|].
  exists pre, q. auto.
Qed.

(** The span is where the output was read. *)
Lemma ok_spanned_at {A} pre0 (Q : text -> A -> Prop) p :
  (forall m a, Q m a -> m <> []) -> okp (eq pre0) Q p ->
  okp (eq pre0) (fun m r => Q m (s_value r) /\ s_span r = Span (byte_len pre0) (byte_len (pre0 ++ m))) (p_spanned p).
Proof.
  intros N P pre q T <-. destruct (P pre0 q T eq_refl) as [H1 H2]. unfold p_spanned, p_map_with_span.
  split; [exact H1|].
  cbn [r_out]. destruct (r_out (p (toks_at pre0 q))) as [a rest alt|e]; [|exact H2].
  destruct H2 as [m [q' [X [Y [Z W]]]]]. exists m, q'. split; [exact X|]. split; [exact Y|].
  split; [exact Z|]. cbn [s_value s_span]. split; [exact W|]. subst rest q.
  rewrite toks_len, (since_eq pre0 _ _ T), passed_app by exact (N _ _ W). reflexivity.
Qed.

Lemma ok_spanned {A} C (Q : text -> A -> Prop) p :
  (forall m a, Q m a -> m <> []) -> okp C Q p -> okp C (fun m r => Q m (s_value r)) (p_spanned p).
Proof.
  intros N P. unfold p_spanned. apply (ok_map_with_span C Q); auto.
Qed.

Lemma ok_each_pre {A} (C : text -> Prop) (Q : text -> A -> Prop) p :
  (forall pre0, C pre0 -> okp (eq pre0) Q p) -> okp C Q p.
Proof. intros H pre q T HC. exact (H pre HC pre q T eq_refl). Qed.

Lemma ok_validate {A B} C (Q : text -> A -> Prop) (Q' : text -> B -> Prop) f p :
  (forall m a sp, Q m a -> m <> [] -> covers t sp m ->
     Q' m (fst (f a sp)) /\
     match snd (f a sp) with
     | None => True
     | Some e => error_right t e /\ is_eoi_error e = false
     end) ->
  (forall m a, Q m a -> m <> []) ->
  okp C Q p -> okp C Q' (p_validate f p).
Proof.
  intros F N P pre q T H. destruct (P pre q T H) as [H1 H2]. unfold p_validate.
  destruct (r_out (p (toks_at pre q))) as [a rest alt|e]; [|split; [exact H1|exact H2]].
  destruct H2 as [m [q' [X [Y [Z W]]]]].
  pose proof (N _ _ W) as Ne. subst rest. rewrite toks_len.
  pose proof (since_covers pre q (List.length q') T) as K. rewrite X in K at 2.
  rewrite passed_app in K by exact Ne. specialize (F m a _ W Ne K).
  destruct (f a _) as [b o]. cbn [fst snd] in F. destruct F as [F1 F2]. split.
  - cbn. apply Forall_app. split; [exact H1|]. destruct o as [e|]; [|constructor].
    destruct F2 as [F2 F3]. constructor; [|constructor].
    split; [|split; cbn; [congruence|exact F2]]. cbn. subst q. rewrite app_length. lia.
  - exists m, q'. auto.
Qed.

Lemma ok_bind {A B} C (Q : text -> A -> Prop) (Q' : A -> text -> B -> Prop) p (k : A -> parser B) :
  okp C Q p ->
  (forall a, okp (fun pre => exists pre0 m, pre = pre0 ++ m /\ C pre0 /\ Q m a) (Q' a) (k a)) ->
  okp C (fun m ab => exists m1 m2, m = m1 ++ m2 /\ Q m1 (fst ab) /\ Q' (fst ab) m2 (snd ab)) (p_bind p k).
Proof.
  intros P K pre q T H. destruct (P pre q T H) as [H1 H2]. unfold p_bind.
  destruct (r_out (p (toks_at pre q))) as [a rest alt|e]; [|split; [exact H1|exact H2]].
  destruct H2 as [m [q' [X [Y [Z W]]]]]. subst rest.
  assert (T' : t = (pre ++ m) ++ q') by (rewrite <- app_assoc, <- X; exact T).
  assert (L : List.length q' <= List.length q) by (subst q; rewrite app_length; lia).
  destruct (K a (pre ++ m) q' T') as [H3 H4]; [eauto|].
  assert (Forall (gl q) (r_errs (p (toks_at pre q)) ++ r_errs (k a (toks_at (pre ++ m) q')))) as G.
  { apply Forall_app. split; [exact H1|]. eapply gl_all_weaken; eassumption. }
  destruct (r_out (k a (toks_at (pre ++ m) q'))) as [b rest alt2|e].
  - destruct H4 as [m2 [q2 [X2 [Y2 [Z2 W2]]]]].
    destruct (merge_alts alt alt2) as [alt' c] eqn:M. split; [exact G|].
    exists (m ++ m2), q2. cbn [r_out]. split; [subst; rewrite <- app_assoc; reflexivity|].
    split; [subst; rewrite <- app_assoc; reflexivity|]. split.
    + eapply merge_alts_ok; [exact M|exact Z|]. eapply glo_weaken; eassumption.
    + exists m, m2. auto.
  - destruct (lmax_opt e alt) as [e' c] eqn:M. split; [exact G|].
    cbn. eapply lmax_opt_ok; [exact M| |exact Z]. eapply gl_weaken; eassumption.
Qed.

Lemma ok_then {A B} C (Q : text -> A -> Prop) (Q' : text -> B -> Prop) p p' :
  okp C Q p -> okp anyc Q' p' ->
  okp C (fun m ab => exists m1 m2, m = m1 ++ m2 /\ Q m1 (fst ab) /\ Q' m2 (snd ab)) (p_then p p').
Proof.
  intros P P'. apply (ok_bind C Q (fun _ => Q')); [exact P|].
  intros a. eapply ok_weaken; [| |exact P']; unfold anyc; auto.
Qed.

(** A condition on the text before that reading on keeps. *)
Definition kept_on (C : text -> Prop) : Prop := forall pre m, C pre -> C (pre ++ m).

Lemma ok_then_on {A B} (C : text -> Prop) (p : parser A) (p' : parser B) : kept_on C ->
  okp C anyq p -> okp C anyq p' -> okp C anyq (p_then p p').
Proof.
  intros K P P'. eapply ok_drop. apply (ok_bind C anyq (fun _ => anyq)); [exact P|].
  intros a. eapply ok_weaken; [| |exact P']; [|auto]. intros pre (pre0 & m & -> & H & _). apply K, H.
Qed.

Lemma ok_then_any {A B} C (p : parser A) (p' : parser B) :
  okp C anyq p -> okp anyc anyq p' -> okp C anyq (p_then p p').
Proof. intros P P'. eapply ok_drop. apply ok_then; eassumption. Qed.

Lemma ok_ignore_then {A B} C (p : parser A) (p' : parser B) :
  okp C anyq p -> okp anyc anyq p' -> okp C anyq (p_ignore_then p p').
Proof. intros P P'. apply ok_map_any, ok_then_any; assumption. Qed.

Lemma ok_then_ignore {A B} C (p : parser A) (p' : parser B) :
  okp C anyq p -> okp anyc anyq p' -> okp C anyq (p_then_ignore p p').
Proof. intros P P'. apply ok_map_any, ok_then_any; assumption. Qed.

Lemma ok_delimited {A B D} C (p : parser A) (o : parser B) (c : parser D) :
  okp anyc anyq p -> okp C anyq o -> okp anyc anyq c -> okp C anyq (p_delimited p o c).
Proof. intros P O K. apply ok_then_ignore; [apply ok_ignore_then|]; assumption. Qed.

(** After an opening delimiter. *)
Lemma ok_after {A B} C (Q : text -> A -> Prop) (p : parser A) (p' : parser B) s :
  okp C Q p -> (forall m a, Q m a -> m = s) ->
  okp (fun pre => exists pre0, pre = pre0 ++ s /\ C pre0) anyq p' -> okp C anyq (p_ignore_then p p').
Proof.
  intros P S P'. apply ok_map_any. eapply ok_drop. apply (ok_bind C Q (fun _ => anyq)); [exact P|].
  intros a. eapply ok_weaken; [| |exact P']; [|auto].
  intros pre [pre0 [m [-> [K H]]]]. rewrite (S _ _ H). eauto.
Qed.

Lemma branch_ok {A} (Q : text -> A -> Prop) pre q o : ok_out Q pre q o -> glo q (branch_alt o).
Proof.
  intros H. destruct o as [a rest alt|e]; cbn in *; [|exact H]. destruct H as [m [q' [_ [_ [H _]]]]].
  exact H.
Qed.

Lemma ok_or {A} C (Q : text -> A -> Prop) p p' : okp C Q p -> okp C Q p' -> okp C Q (p_or p p').
Proof.
  intros P P' pre q T H. destruct (P pre q T H) as [H1 H2]. destruct (P' pre q T H) as [K1 K2].
  pose proof (branch_ok _ _ _ _ H2) as B1. pose proof (branch_ok _ _ _ _ K2) as B2.
  destruct (p_or_cases p p' (toks_at pre q)) as
    [(a & rest & alt & He & Ho & ->)
    |[_ [(a & rest & alt & alt' & c & Ho & He & M & ->)
        |[(a & rest & alt & alt' & c & Ho & M & ->)
         |(ea & eb & Ha & Hb & [[-> _]|[[-> _]|(e & c & M & Le & ->)]])]]]].
  - split; assumption.
  - split; [exact H1|]. rewrite Ho in H2. cbn [r_out].
    destruct H2 as [m [q' [X [Y [Z W]]]]]. exists m, q'. repeat split; auto.
    eapply merge_alts_ok; eassumption.
  - split; [exact K1|]. rewrite Ho in K2. cbn [r_out].
    destruct K2 as [m [q' [X [Y [Z W]]]]]. exists m, q'. repeat split; auto.
    eapply merge_alts_ok; eassumption.
  - rewrite Ha in H2. split; assumption.
  - rewrite Hb in K2. split; assumption.
  - rewrite Ha in H2. rewrite Hb in K2. split; [exact H1|]. cbn in *. eapply lmax_ok; eassumption.
Qed.

Lemma ok_choice_from {A} C (Q : text -> A -> Prop) ps : Forall (okp C Q) ps ->
  forall alt pre q, t = pre ++ q -> C pre -> glo q alt ->
  ok_res Q pre q (p_choice_from alt ps (toks_at pre q)).
Proof.
  induction 1 as [|p ps P _ IH]; intros alt pre q T H G; cbn [p_choice_from].
  - destruct alt as [e|]; [apply ok_fail; exact G|]. split; [constructor|]. apply unexpected_ok, T.
  - destruct (P pre q T H) as [H1 H2].
    destruct (r_out (p (toks_at pre q))) as [a rest al|e] eqn:O; [split; [exact H1|rewrite O; exact H2]|].
    destruct (merge_alts alt (Some e)) as [alt' c] eqn:M.
    destruct (IH alt' pre q T H) as [K1 K2]; [|split; assumption].
    eapply merge_alts_ok; [exact M|exact G|exact H2].
Qed.

Lemma ok_choice {A} C (Q : text -> A -> Prop) ps : Forall (okp C Q) ps -> okp C Q (p_choice ps).
Proof. intros H pre q T HC. apply (ok_choice_from C); auto. exact I. Qed.

Lemma ok_or_not {A} C (p : parser A) : okp C anyq p -> okp C anyq (p_or_not p).
Proof.
  intros P pre q T H. destruct (P pre q T H) as [H1 H2]. unfold p_or_not.
  destruct (r_out (p (toks_at pre q))) as [a rest alt|e].
  - split; [exact H1|]. destruct H2 as [m [q' [X [Y [Z W]]]]]. exists m, q'. unfold anyq. auto.
  - split; [constructor|]. exists [], q. rewrite app_nil_r. unfold anyq. auto.
Qed.

Lemma ok_or_not_text {A} C (Q : text -> A -> Prop) (p : parser A) : okp C Q p ->
  okp C (fun m o => match o with Some a => Q m a | None => m = [] end) (p_or_not p).
Proof.
  intros P pre q T H. destruct (P pre q T H) as [H1 H2]. unfold p_or_not.
  destruct (r_out (p (toks_at pre q))) as [a rest alt|e].
  - split; [exact H1|]. destruct H2 as [m [q' [X [Y [Z W]]]]]. exists m, q'. auto.
  - split; [constructor|]. exists [], q. rewrite app_nil_r. auto.
Qed.

Lemma ok_rewind {A} C (p : parser A) : okp C anyq p -> okp C anyq (p_rewind p).
Proof.
  intros P pre q T H. destruct (P pre q T H) as [H1 H2]. unfold p_rewind. split; [exact H1|].
  cbn [r_out]. destruct (r_out (p (toks_at pre q))) as [a rest alt|e]; [|exact H2].
  destruct H2 as [m [q' [X [Y [Z W]]]]]. exists [], q. rewrite app_nil_r. unfold anyq. auto.
Qed.

(** The texts of a list of outputs, one after the other. *)
Inductive each {A} (Q : text -> A -> Prop) : text -> list A -> Prop :=
| Each_nil : each Q [] []
| Each_cons m a ms l : Q m a -> each Q ms l -> each Q (m ++ ms) (a :: l).

Lemma each_snoc {A} (Q : text -> A -> Prop) ms l m a : each Q ms l -> Q m a ->
  each Q (ms ++ m) (l ++ [a]).
Proof.
  intros H K. induction H as [|n b ms l N _ IH]; cbn [app].
  - rewrite <- (app_nil_r m). constructor; [exact K|constructor].
  - rewrite <- app_assoc. constructor; assumption.
Qed.

Lemma repeat_loop_ok {A} (C : text -> Prop) (Q : text -> A -> Prop) p least most :
  (forall pre m a, C pre -> Q m a -> C (pre ++ m)) -> okp C Q p ->
  forall fuel errs outs alt old cr pre q0 q ms, t = pre ++ q -> C pre ->
  q0 = ms ++ q -> Forall (gl q0) errs -> each Q ms (rev outs) -> glo q0 alt ->
  forall pre0, pre = pre0 ++ ms ->
  ok_res (each Q) pre0 q0 (repeat_loop fuel p least most errs outs alt old cr (toks_at pre q)).
Proof.
  intros Cl P. induction fuel as [|fuel IH]; intros errs outs alt old cr pre q0 q ms T HC X He Ho Ha pre0 X0;
    cbn [repeat_loop].
  - split; [exact He|]. exists ms, q. subst pre. auto.
  - destruct (match most with Some m => m <=? List.length outs | None => false end).
    + split; [exact He|]. exists ms, q. subst pre. auto.
    + destruct (P pre q T HC) as [H1 H2].
      assert (L : List.length q <= List.length q0) by (subst q0; rewrite app_length; lia).
      assert (Forall (gl q0) (errs ++ r_errs (p (toks_at pre q)))) as G.
      { apply Forall_app. split; [exact He|]. eapply gl_all_weaken; eassumption. }
      destruct (r_out (p (toks_at pre q))) as [a rest al|e].
      * destruct H2 as [m [q' [Y [Y2 [Z W]]]]].
        destruct (merge_alts alt al) as [alt' c] eqn:M.
        assert (glo q0 alt') as Ga.
        { eapply merge_alts_ok; [exact M|exact Ha|]. eapply glo_weaken; eassumption. }
        assert (each Q (ms ++ m) (rev (a :: outs))) as Ge by (cbn [rev]; apply each_snoc; assumption).
        destruct (match old with Some o => o =? List.length rest | None => false end).
        -- split; [exact G|]. exists (ms ++ m), q'. cbn [r_out]. subst.
           rewrite <- !app_assoc. auto.
        -- subst rest. apply (IH _ _ _ _ _ (pre ++ m) q0 q' (ms ++ m)); auto.
           ++ rewrite <- app_assoc, <- Y. exact T.
           ++ eapply Cl; eassumption.
           ++ subst. rewrite <- app_assoc. reflexivity.
           ++ subst. rewrite <- app_assoc. reflexivity.
      * destruct (List.length outs <? least).
        -- split; [exact G|]. cbn. eapply gl_weaken; eassumption.
        -- destruct (merge_alts alt (Some e)) as [alt' c] eqn:M. split; [exact He|].
           exists ms, q. cbn [r_out]. subst pre. repeat split; auto.
           eapply merge_alts_ok; [exact M|exact Ha|]. cbn. eapply gl_weaken; eassumption.
Qed.

Lemma ok_repeat_in {A} (C : text -> Prop) (Q : text -> A -> Prop) n m p :
  (forall pre m a, C pre -> Q m a -> C (pre ++ m)) -> okp C Q p -> okp C (each Q) (p_repeat n m p).
Proof.
  intros Cl P pre q T HC. unfold p_repeat.
  apply (repeat_loop_ok C Q p n m Cl P _ _ _ _ _ _ pre q q []); auto; try constructor.
  rewrite app_nil_r. reflexivity.
Qed.

Lemma ok_repeat {A} C (Q : text -> A -> Prop) n m p : okp anyc Q p -> okp C (each Q) (p_repeat n m p).
Proof.
  intros P. eapply ok_weaken; [| |apply (ok_repeat_in anyc Q n m p)]; [exact (fun _ _ => I)|auto| |exact P].
  intros; exact I.
Qed.

Lemma ok_repeat_any {A} C n m (p : parser A) : okp anyc anyq p -> okp C anyq (p_repeat n m p).
Proof. intros P. eapply ok_drop. apply ok_repeat. exact P. Qed.

Lemma until_loop_ok {A} (p : parser A) : okp anyc anyq p ->
  forall q q0 pre pre0 m alt outs cr, t = pre ++ q -> q0 = m ++ q -> pre = pre0 ++ m -> glo q0 alt ->
  ok_res anyq pre0 q0 (until_loop p alt outs cr (toks_at pre q)).
Proof.
  intros P. induction q as [|c q IH]; intros q0 pre pre0 m alt outs cr T X X0 Ha.
  - destruct (P pre [] T I) as [H1 H2]. unfold toks_at in *. cbn [offset_tokens until_loop] in *.
    assert (L : List.length (@nil char) <= List.length q0) by (cbn; lia).
    destruct (r_out (p [])) as [a rest al|e].
    + destruct (merge_alts alt al) as [alt' k] eqn:M. split; [eapply gl_all_weaken; eassumption|].
      destruct H2 as [m2 [q' [Y [Y2 [Z W]]]]]. exists (m ++ m2), q'. cbn [r_out]. subst q0 pre.
      split; [rewrite <- app_assoc, <- Y; reflexivity|]. split; [rewrite Y2, app_assoc; reflexivity|].
      split; [|exact I]. eapply merge_alts_ok; [exact M|exact Ha|]. eapply glo_weaken; eassumption.
    + split; [eapply gl_all_weaken; eassumption|]. cbn. eapply gl_weaken; eassumption.
  - destruct (P pre (c :: q) T I) as [H1 H2]. revert H1 H2. rewrite toks_cons. cbn [until_loop].
    intros H1 H2.
    assert (L : List.length (c :: q) <= List.length q0) by (subst q0; rewrite app_length; lia).
    match goal with H : ok_out _ _ _ (r_out ?r) |- _ => destruct (r_out r) as [a rest al|e] end.
    + destruct (merge_alts alt al) as [alt' k] eqn:M. split; [eapply gl_all_weaken; eassumption|].
      destruct H2 as [m2 [q' [Y [Y2 [Z W]]]]]. exists (m ++ m2), q'. cbn [r_out]. subst q0 pre.
      split; [rewrite <- app_assoc, <- Y; reflexivity|]. split; [rewrite Y2, app_assoc; reflexivity|].
      split; [|exact I]. eapply merge_alts_ok; [exact M|exact Ha|]. eapply glo_weaken; eassumption.
    + destruct (merge_alts alt (Some e)) as [alt' k] eqn:M.
      apply (IH q0 (pre ++ [c]) pre0 (m ++ [c])).
      * rewrite <- app_assoc. exact T.
      * subst q0. rewrite <- app_assoc. reflexivity.
      * subst pre. rewrite <- app_assoc. reflexivity.
      * eapply merge_alts_ok; [exact M|exact Ha|]. cbn. eapply gl_weaken; eassumption.
Qed.

Lemma ok_take_until {A} C (p : parser A) : okp anyc anyq p -> okp C anyq (p_take_until p).
Proof.
  intros P pre q T _. apply (until_loop_ok p P q q pre pre []); auto.
  - rewrite app_nil_r. reflexivity.
  - exact I.
Qed.

Lemma skip_to_ok f q : forall pre rest, skip_to f (toks_at pre q) = Some rest ->
  exists m q', q = m ++ q' /\ rest = toks_at (pre ++ m) q'.
Proof.
  induction q as [|c q IH]; intros pre rest H; [discriminate|]. rewrite toks_cons in H.
  cbn [skip_to] in H. destruct (f c).
  - injection H as <-. exists [], (c :: q). rewrite app_nil_r, toks_cons. auto.
  - apply IH in H. destruct H as [m [q' [-> ->]]]. exists (c :: m), q'. rewrite <- app_assoc. auto.
Qed.

Lemma ok_recover {A} C f (x : A) p : okp C anyq p -> okp C anyq (p_recover_skip_until f x p).
Proof.
  intros P pre q T H. destruct (P pre q T H) as [H1 H2]. unfold p_recover_skip_until.
  destruct (r_out (p (toks_at pre q))) as [a rest alt|e] eqn:O;
    [split; [exact H1|rewrite O; exact H2]|].
  destruct (skip_to f (toks_at pre q)) as [rest|] eqn:S.
  - apply skip_to_ok in S. destruct S as [m [q' [X ->]]]. split.
    + cbn. apply Forall_app. split; [exact H1|]. constructor; [exact H2|constructor].
    + exists m, q'. cbn. unfold anyq. auto.
  - split; [exact H1|]. rewrite O. exact H2.
Qed.

Lemma sep_or_not_ok {B} (C : text -> Prop) (d : parser B) : okp C anyq d ->
  forall alt pre q q0, t = pre ++ q -> C pre -> List.length q <= List.length q0 -> glo q0 alt ->
  forall alt' rest c, sep_or_not d alt (toks_at pre q) = (alt', rest, c) ->
  glo q0 alt' /\ exists m q', q = m ++ q' /\ rest = toks_at (pre ++ m) q'.
Proof.
  intros P alt pre q q0 T HC L Ha alt' rest c S. destruct (P pre q T HC) as [H1 H2].
  unfold sep_or_not in S. pose proof (gl_all_weaken _ _ _ H1 L) as G1.
  destruct (r_out (d (toks_at pre q))) as [a r al|e].
  - destruct (merge_alts_list al _) as [n k] eqn:M1. destruct (merge_alts alt n) as [n' k'] eqn:M2.
    injection S as <- <- _. destruct H2 as [m [q' [X [Y [Z W]]]]]. split.
    + eapply merge_alts_ok; [exact M2|exact Ha|]. eapply merge_alts_list_ok; [exact G1|exact M1|].
      eapply glo_weaken; eassumption.
    + exists m, q'. auto.
  - destruct (merge_alts_list (Some e) _) as [n k] eqn:M1. destruct (merge_alts alt n) as [n' k'] eqn:M2.
    injection S as <- <- _. split.
    + eapply merge_alts_ok; [exact M2|exact Ha|]. eapply merge_alts_list_ok; [exact G1|exact M1|].
      cbn. eapply gl_weaken; eassumption.
    + exists [], q. rewrite app_nil_r. auto.
Qed.

Lemma sep_loop_ok {A B} (C : text -> Prop) (p : parser A) (d : parser B) : kept_on C ->
  okp C anyq p -> okp C anyq d ->
  forall fuel errs outs alt cr pre q q0, t = pre ++ q -> C pre -> List.length q <= List.length q0 ->
  Forall (gl q0) errs -> glo q0 alt ->
  forall errs' outs' alt' rest e' c,
  sep_loop fuel p d errs outs alt cr (toks_at pre q) = (errs', outs', alt', rest, e', c) ->
  Forall (gl q0) errs' /\ glo q0 alt' /\ glo q0 e'
  /\ exists m q', q = m ++ q' /\ rest = toks_at (pre ++ m) q'.
Proof.
  intros KC P D. induction fuel as [|fuel IH]; intros errs outs alt cr pre q q0 T HC L He Ha errs' outs' alt' rest e' c S;
    cbn [sep_loop] in S.
  - injection S as <- <- <- <- <- _. split; [exact He|]. split; [exact Ha|]. split; [exact I|].
    exists [], q. rewrite app_nil_r. auto.
  - destruct (D pre q T HC) as [H1 H2]. pose proof (gl_all_weaken _ _ _ H1 L) as G1.
    destruct (r_out (d (toks_at pre q))) as [a r al|e].
    + destruct (merge_alts alt al) as [alt1 c1] eqn:M1.
      destruct H2 as [m [q' [X [Y [Z W]]]]]. subst r.
      assert (T' : t = (pre ++ m) ++ q') by (rewrite <- app_assoc, <- X; exact T).
      assert (L' : List.length q' <= List.length q0) by (rewrite X, app_length in L; lia).
      destruct (P (pre ++ m) q' T' (KC _ _ HC)) as [K1 K2]. pose proof (gl_all_weaken _ _ _ K1 L') as G2.
      assert (glo q0 alt1) as Ga1.
      { eapply merge_alts_ok; [exact M1|exact Ha|]. eapply glo_weaken; eassumption. }
      assert (Forall (gl q0) (errs ++ r_errs (d (toks_at pre q)) ++ r_errs (p (toks_at (pre ++ m) q')))) as G.
      { apply Forall_app. split; [exact He|]. apply Forall_app. auto. }
      destruct (r_out (p (toks_at (pre ++ m) q'))) as [b r i_alt|e].
      * destruct (merge_alts alt1 i_alt) as [alt2 c2] eqn:M2.
        destruct K2 as [m2 [q2 [X2 [Y2 [Z2 W2]]]]]. subst r.
        assert (T2 : t = ((pre ++ m) ++ m2) ++ q2) by (rewrite <- app_assoc, <- X2; exact T').
        assert (L2 : List.length q2 <= List.length q0) by (rewrite X2, app_length in L'; lia).
        assert (glo q0 alt2) as Ga2.
        { eapply merge_alts_ok; [exact M2|exact Ga1|]. eapply glo_weaken; eassumption. }
        destruct (IH _ _ _ _ _ _ q0 T2 (KC _ _ (KC _ _ HC)) L2 G Ga2 _ _ _ _ _ _ S) as [R1 [R2 [R3 [m3 [q3 [R4 R5]]]]]].
        split; [exact R1|]. split; [exact R2|]. split; [exact R3|].
        exists (m ++ m2 ++ m3), q3. rewrite R5, X, X2, R4, <- !app_assoc. auto.
      * injection S as <- <- <- <- <- _. split; [exact G|]. split; [exact Ga1|].
        split; [cbn; eapply gl_weaken; eassumption|]. exists [], q. rewrite app_nil_r. auto.
    + injection S as <- <- <- <- <- _. split; [apply Forall_app; auto|]. split; [exact Ha|].
      split; [cbn; eapply gl_weaken; eassumption|]. exists [], q. rewrite app_nil_r. auto.
Qed.

Lemma ok_separated_on {A B} (C : text -> Prop) (p : parser A) (d : parser B) : kept_on C ->
  okp C anyq p -> okp C anyq d -> okp C anyq (p_separated p d).
Proof.
  intros KC P D pre q T HC. unfold p_separated.
  destruct (sep_or_not d None (toks_at pre q)) as [[alt0 ts0] c0] eqn:S0.
  destruct (sep_or_not_ok C d D None pre q q T HC (le_n _) I _ _ _ S0) as [Ga0 [m [q' [X ->]]]].
  assert (T' : t = (pre ++ m) ++ q') by (rewrite <- app_assoc, <- X; exact T).
  assert (L' : List.length q' <= List.length q) by (rewrite X, app_length; lia).
  destruct (P (pre ++ m) q' T' (KC _ _ HC)) as [K1 K2]. pose proof (gl_all_weaken _ _ _ K1 L') as G2.
  destruct (r_out (p (toks_at (pre ++ m) q'))) as [a r al|e].
  - destruct K2 as [m2 [q2 [X2 [Y2 [Z2 W2]]]]]. subst r.
    destruct (merge_alts alt0 al) as [alt1 c1] eqn:M1.
    assert (T2 : t = ((pre ++ m) ++ m2) ++ q2) by (rewrite <- app_assoc, <- X2; exact T').
    assert (L2 : List.length q2 <= List.length q) by (rewrite X2, app_length in L'; lia).
    assert (glo q alt1) as Ga1.
    { eapply merge_alts_ok; [exact M1|exact Ga0|]. eapply glo_weaken; eassumption. }
    destruct (sep_loop _ p d _ [a] alt1 _ _) as [[[[[errs outs] alt2] ts2] err] c2] eqn:SL.
    destruct (sep_loop_ok C p d KC P D _ _ _ _ _ _ _ q T2 (KC _ _ (KC _ _ HC)) L2 G2 Ga1 _ _ _ _ _ _ SL)
      as [R1 [R2 [R3 [m3 [q3 [R4 ->]]]]]].
    assert (T3 : t = (((pre ++ m) ++ m2) ++ m3) ++ q3) by (rewrite <- app_assoc, <- R4; exact T2).
    assert (L3 : List.length q3 <= List.length q) by (rewrite R4, app_length in L2; lia).
    destruct (sep_or_not d alt2 _) as [[alt3 ts3] c3] eqn:S3.
    destruct (sep_or_not_ok C d D alt2 _ q3 q T3 (KC _ _ (KC _ _ (KC _ _ HC))) L3 R2 _ _ _ S3) as [Ga3 [m4 [q4 [R6 ->]]]].
    destruct (merge_alts alt3 err) as [alt4 c4] eqn:M4. split; [exact R1|].
    exists (m ++ m2 ++ m3 ++ m4), q4. cbn [r_out].
    split; [rewrite X, X2, R4, R6, <- !app_assoc; reflexivity|].
    split; [rewrite <- !app_assoc; reflexivity|]. split; [|exact I].
    eapply merge_alts_ok; [exact M4|exact Ga3|exact R3].
  - destruct (merge_alts alt0 (Some e)) as [alt1 c1] eqn:M1. split; [exact G2|].
    exists m, q'. cbn [r_out]. repeat split; auto.
    eapply merge_alts_ok; [exact M1|exact Ga0|]. cbn. eapply gl_weaken; eassumption.
Qed.

Lemma ok_separated {A B} C (p : parser A) (d : parser B) : okp anyc anyq p -> okp anyc anyq d ->
  okp C anyq (p_separated p d).
Proof.
  intros P D. eapply ok_weaken; [| |apply (ok_separated_on anyc p d)]; [exact (fun _ _ => I)|auto| |exact P|exact D].
  intros ? ? _. exact I.
Qed.

End ErrAt.
