(** Where the errors of a parser lie, for each combinator: a calculus for the
    order of errors. *)

From Coq Require Import NArith PeanoNat List Bool String Lia.
From Verif Require Import Chars Ast Errors Chumsky Spans Grammar Safe SpanProps ErrSpec ErrAt OrderSpec.
Import ListNotations.
Local Open Scope list_scope.

Section OrderCalc.
Variable t : text.

#[local] Hint Extern 0 (env span) => exact (ErrAt.E t) : typeclass_instances.

Notation parser := (Chumsky.parser span).
Notation located := (Chumsky.located span).
Notation toks := (Chumsky.toks span).

(** ** Places *)

(** The place where [r] characters remain. *)
Definition pos_rem (r : nat) : nat := byte_len (firstn (List.length t - r) t).

Definition pos (ts : toks) : nat := pos_rem (List.length ts).

(** The rest of the text as a stream. *)
Definition wt (ts : toks) : Prop := exists pre q, t = pre ++ q /\ ts = toks_at pre q.

Lemma byte_firstn n m (s : text) : n <= m -> byte_len (firstn n s) <= byte_len (firstn m s).
Proof.
  revert n m. induction s as [|c s IH]; intros [|n] [|m] L; cbn [firstn byte_len]; try lia.
  specialize (IH n m). lia.
Qed.

Lemma byte_firstn_lt n m (s : text) : n < m -> m <= List.length s ->
  byte_len (firstn n s) < byte_len (firstn m s).
Proof.
  revert n m. induction s as [|c s IH]; intros [|n] [|m] L K; cbn [firstn byte_len List.length] in *; try lia.
  - pose proof (utf8_len_pos c). lia.
  - specialize (IH n m). lia.
Qed.

Lemma pos_mono r r' : r <= r' -> pos_rem r' <= pos_rem r.
Proof. intros L. apply byte_firstn. lia. Qed.

Lemma pos_strict r r' : r < r' -> r' <= List.length t -> pos_rem r' < pos_rem r.
Proof. intros L K. apply byte_firstn_lt; lia. Qed.

Lemma pos_end : pos_rem 0 = byte_len t.
Proof. unfold pos_rem. rewrite Nat.sub_0_r, firstn_all. reflexivity. Qed.

Lemma pos_at pre q : t = pre ++ q -> pos_rem (List.length q) = byte_len pre.
Proof.
  intros T. unfold pos_rem. rewrite T at 1 2. rewrite app_length.
  replace (List.length pre + List.length q - List.length q) with (List.length pre) by lia.
  rewrite firstn_app, firstn_all, Nat.sub_diag, app_nil_r. reflexivity.
Qed.

Lemma wt_len ts : wt ts -> List.length ts <= List.length t.
Proof. intros (pre & q & -> & ->). rewrite toks_len, app_length. lia. Qed.

Lemma wt_cons c s ts : wt ((c, s) :: ts) ->
  wt ts /\ s = Span (pos_rem (S (List.length ts))) (pos_rem (List.length ts)).
Proof.
  intros (pre & q & T & H). destruct q as [|d q]; [discriminate|]. rewrite toks_cons in H.
  injection H as -> -> ->. assert (T' : t = (pre ++ [d]) ++ q) by (rewrite <- app_assoc; exact T).
  split; [exists (pre ++ [d]), q; auto|]. rewrite toks_len, <- (pos_at _ _ T'), <- (pos_at _ _ T). reflexivity.
Qed.

Lemma wt_nil : wt [].
Proof. exists t, []. rewrite app_nil_r. auto. Qed.

Lemma since_wt ts rem : wt ts -> rem < List.length ts ->
  span_since ts rem = Span (pos ts) (pos_rem rem).
Proof.
  intros (pre & q & T & ->) L. rewrite toks_len in L. rewrite since_eq by exact T.
  unfold pos. rewrite toks_len, (pos_at _ _ T). f_equal.
  unfold passed. replace (Nat.max 1 (List.length q - rem)) with (List.length q - rem) by lia.
  replace rem with (List.length (skipn (List.length q - rem) q)) at 2 by (rewrite skipn_length; lia).
  symmetry. apply pos_at. rewrite <- app_assoc, firstn_skipn. exact T.
Qed.

Lemma since_start ts rem : wt ts -> sp_start (span_since ts rem) = pos ts.
Proof.
  intros (pre & q & T & ->). rewrite since_eq by exact T. unfold pos. rewrite toks_len, (pos_at _ _ T).
  reflexivity.
Qed.

Lemma since_end ts : wt ts -> sp_end (span_since ts 0) = pos_rem 0.
Proof.
  intros (pre & q & T & ->). rewrite since_eq by exact T. cbn [sp_end]. rewrite passed_zero, <- T, pos_end.
  reflexivity.
Qed.

(** ** Errors *)

Definition same (a b : located) : Prop :=
  l_rem a = l_rem b /\ perror_spans (l_err a) = perror_spans (l_err b).

(** The error is shown at the character where the parser failed. *)
Definition plain (l : located) : Prop :=
  perror_spans (l_err l) = [Span (pos_rem (l_rem l)) (pos_rem (pred (l_rem l)))].

Definition from (n : nat) (l : located) : Prop := l_rem l <= n /\ pos_rem n <= starts (l_err l).

Lemma same_refl a : same a a.
Proof. split; reflexivity. Qed.

Lemma same_plain a b : same a b -> plain b -> plain a.
Proof. intros [H K] P. unfold plain. rewrite H, K. exact P. Qed.

Lemma same_from n a b : same a b -> from n b -> from n a.
Proof. intros [H K] P. unfold from, starts. rewrite H, K. exact P. Qed.

Lemma from_le n m l : n <= m -> from n l -> from m l.
Proof. intros L [H K]. split; [lia|]. pose proof (pos_mono _ _ L). lia. Qed.

Lemma plain_starts l : plain l -> starts (l_err l) = pos_rem (l_rem l).
Proof. intros H. unfold starts. rewrite H. reflexivity. Qed.

Lemma plain_stops l : plain l -> stops (l_err l) = pos_rem (pred (l_rem l)).
Proof. intros H. unfold stops. rewrite H. reflexivity. Qed.

Lemma plain_dec l : {plain l} + {~ plain l}.
Proof.
  unfold plain. destruct (perror_spans (l_err l)) as [|[a b] [|]]; [right; discriminate| |right; discriminate].
  destruct (Nat.eq_dec a (pos_rem (l_rem l))) as [->|N]; [|right; intros X; injection X; auto].
  destruct (Nat.eq_dec b (pos_rem (pred (l_rem l)))) as [->|N]; [left; reflexivity|right; intros X; injection X; auto].
Qed.

Lemma merge_spans (a b e : perror span) : merge a b = Some e ->
  perror_spans e = perror_spans a \/ perror_spans e = perror_spans b.
Proof. destruct a, b; cbn; intros M; inversion M; subst; auto. Qed.

Lemma lmax_pick a b e c : lmax a b = (e, c) ->
  same e a /\ l_rem a <= l_rem b \/ same e b /\ l_rem b <= l_rem a.
Proof.
  unfold lmax. destruct (Nat.compare_spec (l_rem a) (l_rem b)) as [Q|L|L]; intros M.
  - destruct (merge (l_err a) (l_err b)) as [x|] eqn:X; injection M as <- _.
    + destruct (merge_spans _ _ _ X) as [H|H]; [left|right]; (split; [split; cbn|]; auto; lia).
    + left. split; [apply same_refl|lia].
  - injection M as <- _. left. split; [apply same_refl|lia].
  - injection M as <- _. right. split; [apply same_refl|lia].
Qed.

Definition opt (P : located -> Prop) (o : option located) : Prop :=
  match o with Some l => P l | None => True end.

Definition respects (P : located -> Prop) : Prop := forall a b, same a b -> P b -> P a.

Lemma lmax_with P a b e c : respects P -> lmax a b = (e, c) -> P a -> P b -> P e.
Proof. intros R M A B. destruct (lmax_pick _ _ _ _ M) as [[H _]|[H _]]; eapply R; eassumption. Qed.

Lemma lmax_opt_with P a b e c : respects P -> lmax_opt a b = (e, c) -> P a -> opt P b -> P e.
Proof.
  intros R M A B. destruct b as [b|]; cbn in M; [eapply lmax_with; eassumption|].
  injection M as <- _. exact A.
Qed.

Lemma merge_alts_with P a b e c : respects P -> merge_alts a b = (e, c) -> opt P a -> opt P b -> opt P e.
Proof.
  intros R M A B. destruct a as [a|], b as [b|]; cbn in M; try (injection M as <- _; assumption).
  destruct (lmax b a) as [m d] eqn:L. injection M as <- _. cbn. eapply lmax_with; eassumption.
Qed.

Lemma merge_alts_list_with P l : respects P -> Forall P l -> forall a e c, merge_alts_list a l = (e, c) ->
  opt P a -> opt P e.
Proof.
  intros R. induction 1 as [|b l B _ IH]; intros a e c M A; cbn [merge_alts_list] in M.
  - injection M as <- _. exact A.
  - destruct (merge_alts a (Some b)) as [m d] eqn:X.
    destruct (merge_alts_list m l) as [m' d'] eqn:Y. injection M as <- _.
    eapply IH; [exact Y|]. eapply merge_alts_with; [exact R|exact X|exact A|exact B].
Qed.

Lemma plain_respects : respects plain.
Proof. intros a b. apply same_plain. Qed.

Lemma from_respects n : respects (from n).
Proof. intros a b. apply same_from. Qed.

Lemma unexpected_plain ts x : wt ts -> plain (unexpected ts x) /\ l_rem (unexpected ts x) = List.length ts.
Proof.
  intros W. destruct ts as [|[c s] ts]; cbn [unexpected List.length l_rem].
  - split; [|reflexivity]. unfold plain. cbn. rewrite pos_end. reflexivity.
  - split; [|reflexivity]. apply wt_cons in W. destruct W as [_ ->]. reflexivity.
Qed.

(** ** Parsers *)

(** A property of errors that depends on where the parser starts. *)
Record place (P : nat -> located -> Prop) : Prop := Place {
  pl_same : forall n, respects (P n);
  pl_mono : forall n m l, n <= m -> P n l -> P m l;
  pl_plain : forall n l, plain l -> l_rem l = n -> P n l;
}.

Definition okl {A} (P : nat -> located -> Prop) (p : parser A) : Prop := forall ts, wt ts ->
  match r_out (p ts) with
  | Ok _ rest alt => wt rest /\ List.length rest <= List.length ts /\ opt (P (List.length ts)) alt
  | Err e => P (List.length ts) e
  end /\ Forall (P (List.length ts)) (r_errs (p ts)).

Lemma from_place : place from.
Proof.
  split; [exact from_respects|exact from_le|]. intros n l H <-. split; [lia|]. rewrite plain_starts by exact H. lia.
Qed.

Definition pl (n : nat) (l : located) : Prop := plain l.

Lemma pl_place : place pl.
Proof. split; [intros n; exact plain_respects|unfold pl; auto|unfold pl; auto]. Qed.

Section Place.
Variable P : nat -> located -> Prop.
Hypothesis PP : place P.

Lemma opt_mono n m o : n <= m -> opt (P n) o -> opt (P m) o.
Proof. intros L. destruct o; cbn; [apply (pl_mono _ PP); exact L|auto]. Qed.

Lemma all_mono n m l : n <= m -> Forall (P n) l -> Forall (P m) l.
Proof. intros L. apply Forall_impl. intros a. apply (pl_mono _ PP); exact L. Qed.

Lemma P_unexpected ts x : wt ts -> P (List.length ts) (unexpected ts x).
Proof. intros W. destruct (unexpected_plain ts x W) as [H K]. apply (pl_plain _ PP); assumption. Qed.

Lemma l_fail {A} (ts : toks) (e : located) : P (List.length ts) e ->
  match r_out (@fail _ A e) with
  | Ok _ rest alt => wt rest /\ List.length rest <= List.length ts /\ opt (P (List.length ts)) alt
  | Err e => P (List.length ts) e
  end /\ Forall (P (List.length ts)) (r_errs (@fail _ A e)).
Proof. intros H. split; [exact H|constructor]. Qed.

Lemma l_filter f : okl P (p_filter f).
Proof.
  intros ts W. destruct ts as [|[c s] ts]; cbn [p_filter]; [apply l_fail, P_unexpected, W|].
  destruct (f c); [|apply l_fail, P_unexpected, W]. cbn. destruct (wt_cons _ _ _ W). repeat split; auto.
Qed.

Lemma l_none_of x : okl P (p_none_of x).
Proof. apply l_filter. Qed.

Lemma l_just x : okl P (p_just x).
Proof.
  intros ts W. destruct ts as [|[c s] ts]; cbn [p_just]; [apply l_fail, P_unexpected, W|].
  destruct (N.eqb c x); [|apply l_fail, P_unexpected, W]. cbn. destruct (wt_cons _ _ _ W). repeat split; auto.
Qed.

Lemma l_just_str s : okl P (p_just_str s).
Proof.
  induction s as [|x s IH]; intros ts W; cbn [p_just_str].
  - cbn. auto.
  - destruct ts as [|[c sp] ts]; [apply l_fail, P_unexpected, W|].
    destruct (N.eqb c x); [|apply l_fail, P_unexpected, W].
    destruct (wt_cons _ _ _ W) as [W' _]. destruct (IH ts W') as [H K]. split.
    + destruct (r_out _) as [a rest alt|e].
      * destruct H as (H1 & H2 & H3). cbn [List.length]. split; [exact H1|]. split; [lia|].
        eapply opt_mono; [|exact H3]. lia.
      * eapply (pl_mono _ PP); [|exact H]. cbn. lia.
    + eapply all_mono; [|exact K]. cbn. lia.
Qed.

Lemma l_end : okl P p_end.
Proof.
  intros ts W. destruct ts as [|x ts]; cbn [p_end]; [|apply l_fail, P_unexpected, W]. cbn. auto.
Qed.

Lemma l_filter_map {A} f : (forall s c e, f s c = inr e -> perror_spans e = [s]) -> okl P (@p_filter_map _ _ A f).
Proof.
  intros F ts W. destruct ts as [|[c s] ts]; cbn [p_filter_map]; [apply l_fail, P_unexpected, W|].
  destruct (wt_cons _ _ _ W) as [W' Hs].
  destruct (f s c) as [a|e] eqn:X; [cbn; repeat split; auto|].
  apply l_fail. apply (pl_plain _ PP); [|reflexivity]. unfold plain. cbn [l_rem l_err].
  rewrite (F _ _ _ X), Hs. reflexivity.
Qed.

Lemma l_map {A B} (f : A -> B) p : okl P p -> okl P (p_map f p).
Proof.
  intros H ts W. destruct (H ts W) as [H1 H2]. unfold p_map. cbn [r_out r_errs]. split; [|exact H2].
  destruct (r_out (p ts)); exact H1.
Qed.

Lemma l_ignored {A} (p : parser A) : okl P p -> okl P (p_ignored p).
Proof. apply l_map. Qed.

Lemma l_map_with_span {A B} (f : A -> span -> B) p : okl P p -> okl P (p_map_with_span f p).
Proof.
  intros H ts W. destruct (H ts W) as [H1 H2]. unfold p_map_with_span. cbn [r_out r_errs]. split; [|exact H2].
  destruct (r_out (p ts)); exact H1.
Qed.

Lemma l_spanned {A} (p : parser A) : okl P p -> okl P (p_spanned p).
Proof. apply l_map_with_span. Qed.

Lemma l_map_err {A} f (p : parser A) : (forall e, perror_spans (f e) = perror_spans e) ->
  okl P p -> okl P (p_map_err f p).
Proof.
  intros F H ts W. destruct (H ts W) as [H1 H2]. unfold p_map_err. cbn [r_out r_errs]. split; [|exact H2].
  destruct (r_out (p ts)) as [a rest alt|e]; [exact H1|]. eapply (pl_same _ PP); [|exact H1]. split; [reflexivity|apply F].
Qed.

Lemma l_bind {A B} (p : parser A) (k : A -> parser B) : okl P p -> (forall a, okl P (k a)) -> okl P (p_bind p k).
Proof.
  intros H K ts W. destruct (H ts W) as [H1 H2]. unfold p_bind. destruct (r_out (p ts)) as [a rest alt|e].
  - destruct H1 as (W1 & L1 & A1). destruct (K a rest W1) as [K1 K2].
    assert (Forall (P (List.length ts)) (r_errs (p ts) ++ r_errs (k a rest))) as G.
    { apply Forall_app. split; [exact H2|]. eapply all_mono; eassumption. }
    destruct (r_out (k a rest)) as [b rest2 alt2|e].
    + destruct K1 as (W2 & L2 & A2). destruct (merge_alts alt alt2) as [alt' c] eqn:M.
      split; [|exact G]. cbn. split; [exact W2|]. split; [lia|].
      eapply merge_alts_with; [apply (pl_same _ PP)|exact M|exact A1|]. eapply opt_mono; eassumption.
    + destruct (lmax_opt e alt) as [e' c] eqn:M. split; [|exact G]. cbn.
      eapply lmax_opt_with; [apply (pl_same _ PP)|exact M| |exact A1]. eapply (pl_mono _ PP); eassumption.
  - split; [exact H1|exact H2].
Qed.

Lemma l_then {A B} (p : parser A) (k : parser B) : okl P p -> okl P k -> okl P (p_then p k).
Proof. intros H K. apply l_bind; auto. Qed.

Lemma l_ignore_then {A B} (p : parser A) (k : parser B) : okl P p -> okl P k -> okl P (p_ignore_then p k).
Proof. intros H K. apply l_map, l_then; auto. Qed.

Lemma l_then_ignore {A B} (p : parser A) (k : parser B) : okl P p -> okl P k -> okl P (p_then_ignore p k).
Proof. intros H K. apply l_map, l_then; auto. Qed.

Lemma l_delimited {A B C} (p : parser A) (o : parser B) (c : parser C) : okl P p -> okl P o -> okl P c ->
  okl P (p_delimited p o c).
Proof. intros H K L. apply l_then_ignore; [apply l_ignore_then|]; auto. Qed.

Lemma branch_with {A} n (ts : toks) (o : outcome span A) :
  match o with
  | Ok _ rest alt => wt rest /\ List.length rest <= List.length ts /\ opt (P n) alt
  | Err e => P n e
  end -> opt (P n) (branch_alt o).
Proof. destruct o as [a rest alt|e]; cbn; [intros (_ & _ & H); exact H|auto]. Qed.

Lemma l_or {A} (p k : parser A) : okl P p -> okl P k -> okl P (p_or p k).
Proof.
  intros H K ts W. destruct (H ts W) as [H1 H2], (K ts W) as [K1 K2].
  pose proof (branch_with _ _ _ H1) as B1. pose proof (branch_with _ _ _ K1) as B2.
  destruct (p_or_cases p k ts) as
    [(a & rest & alt & He & Ho & ->)
    |[_ [(a & rest & alt & alt' & c & Ho & He & M & ->)
        |[(a & rest & alt & alt' & c & Ho & M & ->)
         |(ea & eb & Ha & Hb & [[-> _]|[[-> _]|(e & c & M & Le & ->)]])]]]]; cbn [r_out r_errs].
  - split; assumption.
  - split; [|exact H2]. rewrite Ho in H1. destruct H1 as (X & Y & Z). split; [exact X|]. split; [exact Y|].
    eapply merge_alts_with; [apply (pl_same _ PP)|exact M|exact Z|exact B2].
  - split; [|exact K2]. rewrite Ho in K1. destruct K1 as (X & Y & Z). split; [exact X|]. split; [exact Y|].
    eapply merge_alts_with; [apply (pl_same _ PP)|exact M|exact Z|exact B1].
  - rewrite Ha in H1. split; assumption.
  - rewrite Hb in K1. split; assumption.
  - rewrite Ha in H1. rewrite Hb in K1. split; [|exact H2].
    eapply lmax_with; [apply (pl_same _ PP)|exact M|exact H1|exact K1].
Qed.

Lemma l_choice_from {A} (ps : list (parser A)) : Forall (okl P) ps -> forall alt ts, wt ts ->
  opt (P (List.length ts)) alt ->
  match r_out (p_choice_from alt ps ts) with
  | Ok _ rest alt => wt rest /\ List.length rest <= List.length ts /\ opt (P (List.length ts)) alt
  | Err e => P (List.length ts) e
  end /\ Forall (P (List.length ts)) (r_errs (p_choice_from alt ps ts)).
Proof.
  induction 1 as [|p ps H _ IH]; intros alt ts W G; cbn [p_choice_from].
  - destruct alt as [e|]; [apply l_fail; exact G|]. split; [|constructor]. apply P_unexpected, W.
  - destruct (H ts W) as [H1 H2].
    destruct (r_out (p ts)) as [a rest al|e] eqn:O; [split; [rewrite O; exact H1|exact H2]|].
    destruct (merge_alts alt (Some e)) as [alt' c] eqn:M. apply IH; [exact W|].
    eapply merge_alts_with; [apply (pl_same _ PP)|exact M|exact G|exact H1].
Qed.

Lemma l_choice {A} (ps : list (parser A)) : Forall (okl P) ps -> okl P (p_choice ps).
Proof. intros H ts W. apply l_choice_from; auto. exact I. Qed.

Lemma l_or_not {A} (p : parser A) : okl P p -> okl P (p_or_not p).
Proof.
  intros H ts W. destruct (H ts W) as [H1 H2]. unfold p_or_not. destruct (r_out (p ts)) as [a rest alt|e].
  - split; assumption.
  - cbn. repeat split; auto.
Qed.

Lemma l_rewind {A} (p : parser A) : okl P p -> okl P (p_rewind p).
Proof.
  intros H ts W. destruct (H ts W) as [H1 H2]. unfold p_rewind. cbn [r_out r_errs]. split; [|exact H2].
  destruct (r_out (p ts)) as [a rest alt|e]; [|exact H1]. destruct H1 as (_ & _ & H1). auto.
Qed.

Lemma l_repeat_loop {A} (p : parser A) least most : okl P p ->
  forall fuel n errs outs alt old cr ts, wt ts -> List.length ts <= n -> Forall (P n) errs -> opt (P n) alt ->
  match r_out (repeat_loop fuel p least most errs outs alt old cr ts) with
  | Ok _ rest alt => wt rest /\ List.length rest <= List.length ts /\ opt (P n) alt
  | Err e => P n e
  end /\ Forall (P n) (r_errs (repeat_loop fuel p least most errs outs alt old cr ts)).
Proof.
  intros H. induction fuel as [|fuel IH]; intros n errs outs alt old cr ts W L He Ha; cbn [repeat_loop].
  - cbn. auto.
  - destruct (match most with Some m => m <=? List.length outs | None => false end); [cbn; auto|].
    destruct (H ts W) as [H1 H2].
    assert (Forall (P n) (errs ++ r_errs (p ts))) as G.
    { apply Forall_app. split; [exact He|]. eapply all_mono; eassumption. }
    destruct (r_out (p ts)) as [a rest al|e].
    + destruct H1 as (X & Y & Z). destruct (merge_alts alt al) as [alt' c] eqn:M.
      assert (opt (P n) alt') as Ga.
      { eapply merge_alts_with; [apply (pl_same _ PP)|exact M|exact Ha|]. eapply opt_mono; eassumption. }
      destruct (match old with Some o => o =? List.length rest | None => false end).
      * cbn. auto.
      * destruct (IH n (errs ++ r_errs (p ts)) (a :: outs) alt' (Some (List.length rest)) (cr ++ r_crash (p ts) ++ c) rest)
          as [I1 I2]; auto; [lia|]. split; [|exact I2].
        destruct (r_out (repeat_loop _ _ _ _ _ _ _ _ _ _)); [|exact I1].
        destruct I1 as (J1 & J2 & J3). repeat split; auto. lia.
    + destruct (List.length outs <? least).
      * split; [|exact G]. cbn. eapply (pl_mono _ PP); eassumption.
      * destruct (merge_alts alt (Some e)) as [alt' c] eqn:M. cbn. split; [|exact He]. split; [exact W|]. split; [lia|].
        eapply merge_alts_with; [apply (pl_same _ PP)|exact M|exact Ha|]. cbn. eapply (pl_mono _ PP); eassumption.
Qed.

Lemma l_repeat {A} n m (p : parser A) : okl P p -> okl P (p_repeat n m p).
Proof. intros H ts W. unfold p_repeat. apply l_repeat_loop; auto. exact I. Qed.

Lemma l_repeated {A} (p : parser A) : okl P p -> okl P (p_repeated p).
Proof. apply l_repeat. Qed.

Lemma l_until {A} (p : parser A) : okl P p -> forall ts n alt outs cr, wt ts -> List.length ts <= n ->
  opt (P n) alt ->
  match r_out (until_loop p alt outs cr ts) with
  | Ok _ rest alt => wt rest /\ List.length rest <= List.length ts /\ opt (P n) alt
  | Err e => P n e
  end /\ Forall (P n) (r_errs (until_loop p alt outs cr ts)).
Proof.
  intros H. induction ts as [|[c s] ts IH]; intros n alt outs cr W L Ha; cbn [until_loop];
    destruct (H _ W) as [H1 H2]; pose proof (all_mono _ _ _ L H2) as H3.
  - destruct (r_out (p [])) as [a rest al|e].
    + destruct H1 as (X & Y & Z). destruct (merge_alts alt al) as [alt' k] eqn:M. cbn [r_out r_errs].
      split; [|exact H3]. split; [exact X|]. split; [exact Y|].
      eapply merge_alts_with; [apply (pl_same _ PP)|exact M|exact Ha|]. eapply opt_mono; eassumption.
    + split; [|exact H3]. cbn. eapply (pl_mono _ PP); eassumption.
  - match type of H1 with context [r_out ?x] => change (p ((c, s) :: ts)) with x; destruct (r_out x) as [a rest al|e] end.
    + destruct H1 as (X & Y & Z). destruct (merge_alts alt al) as [alt' k] eqn:M. cbn [r_out r_errs].
      split; [|exact H3]. split; [exact X|]. split; [exact Y|].
      eapply merge_alts_with; [apply (pl_same _ PP)|exact M|exact Ha|]. eapply opt_mono; eassumption.
    + destruct (merge_alts alt (Some e)) as [alt' k] eqn:M.
      destruct (wt_cons _ _ _ W) as [W' _].
      match goal with |- context [until_loop p alt' _ ?x ts] => destruct (IH n alt' (c :: outs) x W') as [I1 I2] end.
      * cbn [List.length] in L. lia.
      * eapply merge_alts_with; [apply (pl_same _ PP)|exact M|exact Ha|]. cbn. eapply (pl_mono _ PP); eassumption.
      * split; [|exact I2]. destruct (r_out (until_loop _ _ _ _ _)); [|exact I1].
        destruct I1 as (J1 & J2 & J3). cbn [List.length]. repeat split; auto.
Qed.

Lemma l_take_until {A} (p : parser A) : okl P p -> okl P (p_take_until p).
Proof. intros H ts W. apply l_until; auto. exact I. Qed.

Lemma skip_to_wt f ts : forall rest, wt ts -> skip_to f ts = Some rest ->
  wt rest /\ List.length rest <= List.length ts.
Proof.
  induction ts as [|[c s] ts IH]; intros rest W H; cbn [skip_to] in H; [discriminate|].
  destruct (f c); [injection H as <-; auto|]. destruct (wt_cons _ _ _ W) as [W' _].
  destruct (IH rest W' H). cbn [List.length]. auto.
Qed.

Lemma l_recover {A} f (x : A) p : okl P p -> okl P (p_recover_skip_until f x p).
Proof.
  intros H ts W. destruct (H ts W) as [H1 H2]. unfold p_recover_skip_until.
  destruct (r_out (p ts)) as [a rest alt|e] eqn:O; [split; [rewrite O; exact H1|exact H2]|].
  destruct (skip_to f ts) as [rest|] eqn:S.
  - destruct (skip_to_wt _ _ _ W S). cbn. repeat split; auto. apply Forall_app. auto.
  - split; [rewrite O; exact H1|exact H2].
Qed.

Lemma l_sep_or_not {B} (d : parser B) : okl P d -> forall alt ts n, wt ts -> List.length ts <= n -> opt (P n) alt ->
  forall alt' rest c, sep_or_not d alt ts = (alt', rest, c) ->
  wt rest /\ List.length rest <= List.length ts /\ opt (P n) alt'.
Proof.
  intros D alt ts n W L Ha alt' rest c S. destruct (D ts W) as [H1 H2]. unfold sep_or_not in S.
  pose proof (all_mono _ _ _ L H2) as G1.
  destruct (r_out (d ts)) as [a r al|e].
  - destruct (merge_alts_list al _) as [m k] eqn:M1. destruct (merge_alts alt m) as [m' k'] eqn:M2.
    injection S as <- <- _. destruct H1 as (X & Y & Z). split; [exact X|]. split; [exact Y|].
    eapply merge_alts_with; [apply (pl_same _ PP)|exact M2|exact Ha|].
    eapply merge_alts_list_with; [apply (pl_same _ PP)|exact G1|exact M1|]. eapply opt_mono; eassumption.
  - destruct (merge_alts_list (Some e) _) as [m k] eqn:M1. destruct (merge_alts alt m) as [m' k'] eqn:M2.
    injection S as <- <- _. split; [exact W|]. split; [lia|].
    eapply merge_alts_with; [apply (pl_same _ PP)|exact M2|exact Ha|].
    eapply merge_alts_list_with; [apply (pl_same _ PP)|exact G1|exact M1|]. cbn. eapply (pl_mono _ PP); eassumption.
Qed.

Lemma l_sep_loop {A B} (p : parser A) (d : parser B) : okl P p -> okl P d ->
  forall fuel n errs outs alt cr ts, wt ts -> List.length ts <= n -> Forall (P n) errs -> opt (P n) alt ->
  forall errs' outs' alt' rest e' c,
  sep_loop fuel p d errs outs alt cr ts = (errs', outs', alt', rest, e', c) ->
  wt rest /\ List.length rest <= List.length ts /\ Forall (P n) errs' /\ opt (P n) alt' /\ opt (P n) e'.
Proof.
  intros H D. induction fuel as [|fuel IH]; intros n errs outs alt cr ts W L He Ha errs' outs' alt' rest e' c S;
    cbn [sep_loop] in S.
  - injection S as <- <- <- <- <- _. cbn. auto.
  - destruct (D ts W) as [H1 H2]. pose proof (all_mono _ _ _ L H2) as G1.
    destruct (r_out (d ts)) as [a r al|e].
    + destruct H1 as (X & Y & Z). destruct (merge_alts alt al) as [alt1 c1] eqn:M1.
      destruct (H r X) as [K1 K2]. assert (L' : List.length r <= n) by lia.
      pose proof (all_mono _ _ _ L' K2) as G2.
      assert (opt (P n) alt1) as Ga.
      { eapply merge_alts_with; [apply (pl_same _ PP)|exact M1|exact Ha|]. eapply opt_mono; [|exact Z]. lia. }
      assert (Forall (P n) (errs ++ r_errs (d ts) ++ r_errs (p r))) as G.
      { apply Forall_app. split; [exact He|]. apply Forall_app. auto. }
      destruct (r_out (p r)) as [b r2 i_alt|e].
      * destruct (merge_alts alt1 i_alt) as [alt2 c2] eqn:M2. destruct K1 as (X2 & Y2 & Z2).
        assert (opt (P n) alt2) as Ga2.
        { eapply merge_alts_with; [apply (pl_same _ PP)|exact M2|exact Ga|]. eapply opt_mono; [|exact Z2]. lia. }
        destruct (IH n _ _ _ _ r2 X2 (Nat.le_trans _ _ _ Y2 L') G Ga2 _ _ _ _ _ _ S) as (J1 & J2 & J3 & J4 & J5).
        repeat split; auto. lia.
      * injection S as <- <- <- <- <- _. repeat split; auto. cbn. eapply (pl_mono _ PP); [|exact K1]. lia.
    + injection S as <- <- <- <- <- _. repeat split; auto; [apply Forall_app; auto|].
      cbn. eapply (pl_mono _ PP); [|exact H1]. lia.
Qed.

Lemma l_separated {A B} (p : parser A) (d : parser B) : okl P p -> okl P d -> okl P (p_separated p d).
Proof.
  intros H D ts W. unfold p_separated.
  destruct (sep_or_not d None ts) as [[alt0 ts0] c0] eqn:S0.
  destruct (l_sep_or_not d D None ts _ W (le_n _) I _ _ _ S0) as (W0 & L0 & A0).
  destruct (H ts0 W0) as [K1 K2]. pose proof (all_mono _ _ _ L0 K2) as G2.
  destruct (r_out (p ts0)) as [a r al|e].
  - destruct K1 as (W1 & L1 & A1). destruct (merge_alts alt0 al) as [alt1 c1] eqn:M1.
    assert (opt (P (List.length ts)) alt1) as Ga.
    { eapply merge_alts_with; [apply (pl_same _ PP)|exact M1|exact A0|]. eapply opt_mono; eassumption. }
    destruct (sep_loop _ p d _ [a] alt1 _ _) as [[[[[errs outs] alt2] ts2] err] c2] eqn:SL.
    destruct (l_sep_loop p d H D _ (List.length ts) _ _ _ _ _ W1 ltac:(lia) G2 Ga _ _ _ _ _ _ SL)
      as (W2 & L2 & E2 & A2 & A3).
    destruct (sep_or_not d alt2 _) as [[alt3 ts3] c3] eqn:S3.
    destruct (l_sep_or_not d D alt2 ts2 (List.length ts) W2 ltac:(lia) A2 _ _ _ S3) as (W3 & L3 & A4).
    destruct (merge_alts alt3 err) as [alt4 c4] eqn:M4. cbn. split; [|exact E2]. split; [exact W3|]. split; [lia|].
    eapply merge_alts_with; [apply (pl_same _ PP)|exact M4|exact A4|exact A3].
  - destruct (merge_alts alt0 (Some e)) as [alt1 c1] eqn:M1. cbn. split; [|exact G2]. split; [exact W0|]. split; [lia|].
    eapply merge_alts_with; [apply (pl_same _ PP)|exact M1|exact A0|]. cbn. eapply (pl_mono _ PP); eassumption.
Qed.

End Place.

End OrderCalc.
