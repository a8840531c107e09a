(** Facts about the combinators: positions stay inside the input, loops make
    progress and errors of the kinds that can be merged never panic. *)

From Coq Require Import NArith PeanoNat List Bool String Lia.
From Verif Require Import Chars Ast Errors Chumsky.
Import ListNotations.
Local Open Scope list_scope.

Section Safe.
Context {Sp : Type} {E : env Sp}.

Notation parser := (parser Sp).
Notation toks := (toks Sp).
Notation located := (located Sp).
Notation len := (@List.length (tok Sp)).

(** Errors that [merge] handles in any combination. *)
Definition mergeable (e : perror Sp) : Prop :=
  match e with
  | EUnexpected _ _ _ _ | EUnclosed _ _ _ _ _ _ => True
  | EMessage _ _ _ | EMessageHelp _ _ _ _ => False
  end.

Definition calm_err (n : nat) (e : located) : Prop :=
  mergeable (l_err e) /\ l_rem e <= n.

Definition calm_opt (n : nat) (o : option located) : Prop :=
  match o with Some e => calm_err n e | None => True end.

Definition suffix (rest ts : toks) : Prop := exists s, ts = s ++ rest.

Definition safe_out {A} (ts : toks) (o : outcome Sp A) : Prop :=
  match o with
  | Ok a rest alt => suffix rest ts /\ calm_opt (len ts) alt
  | Err e => calm_err (len ts) e
  end.

Definition safe_res {A} (ts : toks) (r : presult Sp A) : Prop :=
  r_crash r = [] /\ safe_out ts (r_out r).

(** Safe on inputs of at most [n] tokens. *)
Definition safe {A} (n : nat) (p : parser A) : Prop :=
  forall ts, len ts <= n -> safe_res ts (p ts).

(** Consumes at least [k] tokens when it succeeds. *)
Definition eats {A} (k : nat) (p : parser A) : Prop :=
  forall ts a rest alt, r_out (p ts) = Ok a rest alt -> len rest + k <= len ts.

Lemma suffix_refl ts : suffix ts ts.
Proof. exists []; reflexivity. Qed.

Lemma suffix_trans a b c : suffix a b -> suffix b c -> suffix a c.
Proof. intros [s ->] [s' ->]. exists (s' ++ s). now rewrite app_assoc. Qed.

Lemma suffix_len a b : suffix a b -> len a <= len b.
Proof. intros [s ->]. rewrite app_length. lia. Qed.

Lemma suffix_cons x a b : suffix a b -> suffix a (x :: b).
Proof. intros [s ->]. now exists (x :: s). Qed.

Lemma suffix_tail x a b : suffix (x :: a) b -> suffix a b.
Proof. intros [s ->]. exists (s ++ [x]). now rewrite <- app_assoc. Qed.

Lemma calm_weaken n m e : calm_err n e -> n <= m -> calm_err m e.
Proof. unfold calm_err. intuition lia. Qed.

Lemma calm_opt_weaken n m e : calm_opt n e -> n <= m -> calm_opt m e.
Proof. destruct e; simpl; eauto using calm_weaken. Qed.

Lemma merge_mergeable (a b : perror Sp) :
  mergeable a -> mergeable b -> exists e, merge a b = Some e /\ mergeable e.
Proof.
  destruct a, b; simpl; intros; try contradiction; eexists; split;
    reflexivity || exact I.
Qed.

Lemma lmax_calm n a b e c :
  calm_err n a -> calm_err n b -> lmax a b = (e, c) -> calm_err n e /\ c = [].
Proof.
  unfold lmax. intros [Ma La] [Mb Lb].
  destruct (Nat.compare_spec (l_rem a) (l_rem b)) as [H|H|H]; intros Q.
  - destruct (merge_mergeable _ _ Ma Mb) as [m [Hm Mm]]. rewrite Hm in Q.
    inversion Q; subst. repeat split; simpl; auto.
  - inversion Q; subst. repeat split; auto.
  - inversion Q; subst. repeat split; auto.
Qed.

Lemma lmax_opt_calm n a b e c :
  calm_err n a -> calm_opt n b -> lmax_opt a b = (e, c) -> calm_err n e /\ c = [].
Proof.
  destruct b; simpl; intros.
  - exact (lmax_calm _ _ _ _ _ H H0 H1).
  - now inversion H1; subst.
Qed.

Lemma merge_alts_calm n a b e c :
  calm_opt n a -> calm_opt n b -> merge_alts a b = (e, c) ->
  calm_opt n e /\ c = [].
Proof.
  destruct a as [a|], b as [b|]; simpl; intros Ha Hb Q;
    try (inversion Q; subst; now auto).
  destruct (lmax b a) as [m c'] eqn:M. inversion Q; subst.
  eapply lmax_calm in M; eauto.
Qed.

Lemma merge_alts_list_calm n l : forall a e c,
  calm_opt n a -> Forall (calm_err n) l -> merge_alts_list a l = (e, c) ->
  calm_opt n e /\ c = [].
Proof.
  induction l as [|b l IH]; cbn [merge_alts_list]; intros a e c Ha Hl Q.
  - inversion Q; subst; auto.
  - inversion Hl; subst.
    destruct (merge_alts a (Some b)) as [m c1] eqn:M1.
    destruct (merge_alts_list m l) as [m2 c2] eqn:M2.
    inversion Q; subst.
    assert (Q1 := merge_alts_calm n _ _ _ _ Ha (H1 : calm_opt n (Some b)) M1).
    destruct Q1 as [C1 ->].
    destruct (IH _ _ _ C1 H2 M2) as [C2 ->]. auto.
Qed.

Lemma unexpected_calm ts x : calm_err (len ts) (unexpected ts x).
Proof. destruct ts as [|[c s] ts]; split; simpl; auto. Qed.

(** ** Safety, combinator by combinator *)

Lemma safe_le {A} n m (p : parser A) : safe m p -> n <= m -> safe n p.
Proof. intros H L ts Hts. apply H. lia. Qed.

Lemma eats_le {A} k j (p : parser A) : eats k p -> j <= k -> eats j p.
Proof. intros H L ts a rest alt Q. apply H in Q. lia. Qed.

Lemma safe_eats0 {A} (p : parser A) : (forall n, safe n p) -> eats 0 p.
Proof.
  intros H ts a rest alt Q. specialize (H _ ts (le_n _)) as [_ H].
  rewrite Q in H. destruct H as [H _]. apply suffix_len in H. lia.
Qed.

Lemma safe_fail {A} n ts (e : located) :
  calm_err (len ts) e -> len ts <= n -> safe_res ts (fail (A := A) e).
Proof. split; simpl; auto. Qed.

Lemma safe_filter n f : safe n (p_filter f).
Proof.
  intros [|[c s] ts] _; unfold p_filter.
  - split; simpl; auto. apply (unexpected_calm []).
  - destruct (f c); split; simpl; auto.
    + split; auto. exists [(c, s)]; reflexivity.
    + apply (unexpected_calm ((c, s) :: ts)).
Qed.

Lemma eats_filter f : eats 1 (p_filter f).
Proof.
  intros [|[c s] ts] a rest alt; simpl; [discriminate|].
  destruct (f c); simpl; [|discriminate]. intros H; inversion H; subst. lia.
Qed.

Lemma safe_just n x : safe n (p_just x).
Proof.
  intros [|[c s] ts] _; unfold p_just.
  - split; simpl; auto. apply (unexpected_calm []).
  - destruct (N.eqb c x); split; simpl; auto.
    + split; auto. exists [(c, s)]; reflexivity.
    + apply (unexpected_calm ((c, s) :: ts) [Some x]).
Qed.

Lemma eats_just x : eats 1 (p_just x).
Proof.
  intros [|[c s] ts] a rest alt; simpl; [discriminate|].
  destruct (N.eqb c x); simpl; [|discriminate]. intros H; inversion H; subst. lia.
Qed.

Lemma safe_just_str s : forall n, safe n (p_just_str s).
Proof.
  induction s as [|x s IH]; intros n ts Hts; cbn [p_just_str].
  - split; simpl; auto using suffix_refl.
  - destruct ts as [|[c sp] ts].
    + split; simpl; auto. apply (unexpected_calm [] [Some x]).
    + destruct (N.eqb c x).
      * destruct (IH _ ts (le_n _)) as [H1 H2]. split; auto.
        destruct (r_out (p_just_str s ts)); simpl in *.
        -- destruct H2; split; auto using suffix_cons.
           eapply calm_opt_weaken; eauto.
        -- eapply calm_weaken; eauto.
      * split; simpl; auto. apply (unexpected_calm ((c, sp) :: ts) [Some x]).
Qed.

Lemma eats_just_str s : eats (List.length s) (p_just_str s).
Proof.
  induction s as [|x s IH]; intros ts a rest alt; cbn [p_just_str]; simpl.
  - intros H; inversion H; subst. lia.
  - destruct ts as [|[c sp] ts]; simpl; [discriminate|].
    destruct (N.eqb c x); simpl; [|discriminate].
    intros H. apply IH in H. lia.
Qed.

Lemma safe_end n : safe n p_end.
Proof.
  intros [|[c s] ts] _; split; simpl; auto using suffix_refl.
  apply (unexpected_calm ((c, s) :: ts) [None]).
Qed.

Lemma safe_filter_map {A} n (f : Sp -> char -> A + perror Sp) :
  (forall s c e, f s c = inr e -> mergeable e) -> safe n (p_filter_map f).
Proof.
  intros Hf [|[c s] ts] _; unfold p_filter_map.
  - split; simpl; auto. apply (unexpected_calm [] []).
  - destruct (f s c) as [a|e] eqn:Q; split; simpl; auto.
    + split; auto. exists [(c, s)]; reflexivity.
    + split; simpl; eauto.
Qed.

Lemma eats_filter_map {A} (f : Sp -> char -> A + perror Sp) :
  eats 1 (p_filter_map f).
Proof.
  intros [|[c s] ts] a rest alt; simpl; [discriminate|].
  destruct (f s c); simpl; [|discriminate]. intros H; inversion H; subst. lia.
Qed.

Lemma safe_map {A B} n (f : A -> B) p : safe n p -> safe n (p_map f p).
Proof.
  intros H ts L. destruct (H ts L) as [C O]. split; simpl; auto.
  destruct (r_out (p ts)); simpl in *; auto.
Qed.

Lemma eats_map {A B} k (f : A -> B) (p : parser A) : eats k p -> eats k (p_map f p).
Proof.
  intros H ts b rest alt. simpl. destruct (r_out (p ts)) eqn:Q; [|discriminate].
  intros X; inversion X; subst. eauto.
Qed.

Lemma safe_ignored {A} n (p : parser A) : safe n p -> safe n (p_ignored p).
Proof. apply safe_map. Qed.

Lemma eats_ignored {A} k (p : parser A) : eats k p -> eats k (p_ignored p).
Proof. apply eats_map. Qed.

Lemma safe_map_with_span {A B} n (f : A -> Sp -> B) p :
  safe n p -> safe n (p_map_with_span f p).
Proof.
  intros H ts L. destruct (H ts L) as [C O]. split; simpl; auto.
  destruct (r_out (p ts)); simpl in *; auto.
Qed.

Lemma eats_map_with_span {A B} k (f : A -> Sp -> B) (p : parser A) :
  eats k p -> eats k (p_map_with_span f p).
Proof.
  intros H ts b rest alt. simpl. destruct (r_out (p ts)) eqn:Q; [|discriminate].
  intros X; inversion X; subst. eauto.
Qed.

Lemma safe_map_err {A} n f (p : parser A) :
  (forall e, mergeable e -> mergeable (f e)) -> safe n p -> safe n (p_map_err f p).
Proof.
  intros Hf H ts L. destruct (H ts L) as [C O]. split; simpl; auto.
  destruct (r_out (p ts)); simpl in *; auto.
  destruct O. split; simpl; auto.
Qed.

Lemma eats_map_err {A} k f (p : parser A) : eats k p -> eats k (p_map_err f p).
Proof.
  intros H ts b rest alt. simpl. destruct (r_out (p ts)) eqn:Q; [|discriminate].
  intros X; inversion X; subst. eauto.
Qed.

Lemma safe_map_err_with_span {A} n f (p : parser A) :
  (forall e s, mergeable e -> exists e', f e s = Some e' /\ mergeable e') ->
  safe n p -> safe n (p_map_err_with_span f p).
Proof.
  intros Hf H ts L. destruct (H ts L) as [C O].
  unfold p_map_err_with_span, safe_res.
  destruct (r_out (p ts)) as [a rest alt|e] eqn:Q; simpl in O.
  - rewrite Q. auto.
  - destruct O as [M Le].
    destruct (Hf (l_err e) (span_since ts (l_rem e)) M) as [e' [-> M']].
    simpl. repeat split; auto.
Qed.

Lemma eats_map_err_with_span {A} k f (p : parser A) :
  eats k p -> eats k (p_map_err_with_span f p).
Proof.
  intros H ts b rest alt. unfold p_map_err_with_span.
  destruct (r_out (p ts)) eqn:Q.
  - rewrite Q. intros X; inversion X; subst. eauto.
  - destruct (f _ _); simpl; discriminate.
Qed.

Lemma safe_try_map {A B} n (f : A -> Sp -> B + perror Sp) p :
  (forall a s e, f a s = inr e -> mergeable e) ->
  safe n p -> safe n (p_try_map f p).
Proof.
  intros Hf H ts L. destruct (H ts L) as [C O]. split; simpl; auto.
  destruct (r_out (p ts)) as [a rest alt|e]; simpl in *; auto.
  destruct (f a _) eqn:Q; simpl; auto.
  destruct O as [O _]. apply suffix_len in O. split; simpl; eauto.
Qed.

Lemma eats_try_map {A B} k (f : A -> Sp -> B + perror Sp) p :
  eats k p -> eats k (p_try_map f p).
Proof.
  intros H ts b rest alt. simpl. destruct (r_out (p ts)) eqn:Q; [|discriminate].
  destruct (f a _); [|discriminate].
  intros X; inversion X; subst. eauto.
Qed.

Lemma safe_validate {A B} n (f : A -> Sp -> B * option (perror Sp)) p :
  safe n p -> safe n (p_validate f p).
Proof.
  intros H ts L. destruct (H ts L) as [C O]. unfold p_validate.
  destruct (r_out (p ts)) as [a rest alt|e]; simpl in *.
  - destruct (f a _). split; simpl; auto.
  - split; simpl; auto.
Qed.

Lemma eats_validate {A B} k (f : A -> Sp -> B * option (perror Sp)) p :
  eats k p -> eats k (p_validate f p).
Proof.
  intros H ts b rest alt. unfold p_validate.
  destruct (r_out (p ts)) eqn:Q; simpl.
  - destruct (f a _); simpl. intros X; inversion X; subst. eauto.
  - discriminate.
Qed.

(** The second parser runs on an input shorter by what the first consumed. *)
Lemma safe_bind {A B} n k (p : parser A) (q : A -> parser B) :
  safe n p -> eats k p -> (k <= n -> forall a, safe (n - k) (q a)) ->
  safe n (p_bind p q).
Proof.
  intros Hp He Hq ts L. destruct (Hp ts L) as [C O]. unfold p_bind.
  destruct (r_out (p ts)) as [a rest alt|e] eqn:Q; simpl in O.
  - destruct O as [S1 A1].
    pose proof (suffix_len _ _ S1) as L1.
    pose proof (He _ _ _ _ Q) as L2.
    destruct (Hq ltac:(lia) a rest) as [C2 O2]; [lia|].
    destruct (r_out (q a rest)) as [b rest2 alt2|e] eqn:Q2; simpl in O2.
    + destruct O2 as [S2 A2].
      destruct (merge_alts alt alt2) as [m c] eqn:M.
      eapply (merge_alts_calm (len ts)) in M; eauto using calm_opt_weaken.
      destruct M as [M ->].
      split; simpl. { now rewrite C, C2. }
      split; auto. eapply suffix_trans; eauto.
    + destruct (lmax_opt e alt) as [m c] eqn:M.
      eapply (lmax_opt_calm (len ts)) in M; eauto using calm_weaken.
      destruct M as [M ->].
      split; simpl; auto. now rewrite C, C2.
  - split; simpl; auto.
Qed.

Lemma eats_bind {A B} k j (p : parser A) (q : A -> parser B) :
  eats k p -> (forall a, eats j (q a)) -> eats (k + j) (p_bind p q).
Proof.
  intros Hp Hq ts x rest alt. unfold p_bind.
  destruct (r_out (p ts)) as [a rest1 alt1|e] eqn:Q; simpl; [|discriminate].
  destruct (r_out (q a rest1)) as [b rest2 alt2|e] eqn:Q2; simpl.
  - destruct (merge_alts alt1 alt2). simpl. intros X; inversion X; subst.
    apply Hp in Q. apply Hq in Q2. lia.
  - destruct (lmax_opt e alt1). discriminate.
Qed.

Lemma safe_then {A B} n k (p : parser A) (q : parser B) :
  safe n p -> eats k p -> (k <= n -> safe (n - k) q) -> safe n (p_then p q).
Proof. intros. apply safe_bind with k; auto. Qed.

Lemma eats_then {A B} k j (p : parser A) (q : parser B) :
  eats k p -> eats j q -> eats (k + j) (p_then p q).
Proof. intros. now apply eats_bind. Qed.

Lemma safe_ignore_then {A B} n k (p : parser A) (q : parser B) :
  safe n p -> eats k p -> (k <= n -> safe (n - k) q) -> safe n (p_ignore_then p q).
Proof. intros. apply safe_map. eapply safe_then; eauto. Qed.

Lemma eats_ignore_then {A B} k j (p : parser A) (q : parser B) :
  eats k p -> eats j q -> eats (k + j) (p_ignore_then p q).
Proof. intros. apply eats_map. now apply eats_then. Qed.

Lemma safe_then_ignore {A B} n k (p : parser A) (q : parser B) :
  safe n p -> eats k p -> (k <= n -> safe (n - k) q) -> safe n (p_then_ignore p q).
Proof. intros. apply safe_map. eapply safe_then; eauto. Qed.

Lemma eats_then_ignore {A B} k j (p : parser A) (q : parser B) :
  eats k p -> eats j q -> eats (k + j) (p_then_ignore p q).
Proof. intros. apply eats_map. now apply eats_then. Qed.

Lemma safe_delimited {A B C} n k j (p : parser A) (o : parser B) (c : parser C) :
  safe n o -> eats k o -> (k <= n -> safe (n - k) p) -> eats j p ->
  (k + j <= n -> safe (n - k - j) c) -> safe n (p_delimited p o c).
Proof.
  intros. apply safe_then_ignore with (k + j).
  - apply safe_ignore_then with k; auto.
  - now apply eats_ignore_then.
  - rewrite Nat.sub_add_distr. auto.
Qed.

Lemma eats_delimited {A B C} k j i (p : parser A) (o : parser B) (c : parser C) :
  eats k o -> eats j p -> eats i c -> eats (k + j + i) (p_delimited p o c).
Proof. intros. apply eats_then_ignore; auto. now apply eats_ignore_then. Qed.

(** What [p_or] returns: the errors and the outcome of one of the branches, the
    alternative error being merged with what the other branch left. *)
Lemma p_or_cases {A} (p q : parser A) ts :
  (exists a rest alt, r_errs (p ts) = [] /\ r_out (p ts) = Ok a rest alt
     /\ p_or p q ts = p ts)
  \/ ((r_errs (p ts) <> [] \/ exists e, r_out (p ts) = Err e) /\
      ((exists a rest alt alt' c, r_out (p ts) = Ok a rest alt
          /\ r_errs (p ts) <> []
          /\ merge_alts alt (branch_alt (r_out (q ts))) = (alt', c)
          /\ p_or p q ts = Res (r_errs (p ts)) (Ok a rest alt')
                              (r_crash (q ts) ++ r_crash (p ts) ++ c))
       \/ (exists a rest alt alt' c, r_out (q ts) = Ok a rest alt
          /\ merge_alts alt (branch_alt (r_out (p ts))) = (alt', c)
          /\ p_or p q ts = Res (r_errs (q ts)) (Ok a rest alt')
                              (r_crash (p ts) ++ r_crash (q ts) ++ c))
       \/ (exists ea eb, r_out (p ts) = Err ea /\ r_out (q ts) = Err eb /\
            ((p_or p q ts = Res (r_errs (p ts)) (Err ea)
                               (r_crash (q ts) ++ r_crash (p ts))
                /\ l_rem ea <= l_rem eb) \/
             (p_or p q ts = Res (r_errs (q ts)) (Err eb)
                               (r_crash (p ts) ++ r_crash (q ts))
                /\ l_rem eb <= l_rem ea) \/
             (exists e c, lmax ea eb = (e, c) /\ l_rem ea = l_rem eb /\
               p_or p q ts = Res (r_errs (p ts)) (Err e)
                               (r_crash (p ts) ++ r_crash (q ts) ++ c)))))).
Proof.
  unfold p_or.
  destruct (p ts) as [ea oa ca]; destruct (q ts) as [eb ob cb]; simpl.
  destruct ea as [|e0 ea].
  - destruct oa as [a rest alt|e].
    + left. exists a, rest, alt. auto.
    + right. split; [right; eauto|]. right.
      destruct ob as [b rest alt|e'].
      * left. unfold with_alt; simpl.
        destruct (merge_alts alt (Some e)) as [alt' c] eqn:M.
        exists b, rest, alt, alt', c. repeat split; auto.
      * right. exists e, e'. repeat split; auto.
        unfold cmp_at, cmp_last, last_err; simpl.
        destruct (Nat.compare_spec (l_rem e') (l_rem e)) as [H|H|H].
        -- destruct eb; simpl; auto 6 with arith.
           ++ right; right. destruct (lmax e e') as [m c] eqn:M.
              exists m, c. auto.
           ++ left. split; auto. lia.
        -- right; left. split; auto. lia.
        -- left. split; auto. lia.
  - right. split; [left; discriminate|].
    destruct oa as [a rest alt|e]; destruct ob as [b rest' alt'|e'].
    + unfold with_alt; simpl.
      destruct (merge_alts alt alt') as [m c] eqn:M.
      destruct (merge_alts alt' alt) as [m2 c2] eqn:M2.
      assert (Wa : forall X Y Z : Prop, X -> X \/ Y \/ Z) by tauto.
      assert (Wb : forall X Y Z : Prop, Y -> X \/ Y \/ Z) by tauto.
      set (ra := add_crash cb (Res (e0 :: ea) (Ok a rest m) (ca ++ c))).
      set (rb := add_crash ca (Res eb (Ok b rest' m2) (cb ++ c2))).
      enough (D : forall r, (r = ra \/ r = rb) ->
        (exists a0 rest0 alt0 alt'0 c0,
           Ok a rest alt = Ok a0 rest0 alt0 /\ e0 :: ea <> [] /\
           merge_alts alt0 alt' = (alt'0, c0) /\
           r = Res (e0 :: ea) (Ok a0 rest0 alt'0) (cb ++ ca ++ c0)) \/
        (exists a0 rest0 alt0 alt'0 c0,
           Ok b rest' alt' = Ok a0 rest0 alt0 /\
           merge_alts alt0 alt = (alt'0, c0) /\
           r = Res eb (Ok a0 rest0 alt'0) (ca ++ cb ++ c0)) \/
        (exists ea1 eb1, Ok a rest alt = Err ea1 /\ Ok b rest' alt' = Err eb1 /\
           ((r = Res (e0 :: ea) (Err ea1) (cb ++ ca) /\ l_rem ea1 <= l_rem eb1) \/
            (r = Res eb (Err eb1) (ca ++ cb) /\ l_rem eb1 <= l_rem ea1) \/
            (exists e c0, lmax ea1 eb1 = (e, c0) /\ l_rem ea1 = l_rem eb1 /\
               r = Res (e0 :: ea) (Err e) (ca ++ cb ++ c0))))).
      { apply D.
        repeat match goal with
        | |- context [match ?x with Eq => _ | Lt => _ | Gt => _ end] =>
            destruct x; auto
        end. }
      intros r [-> | ->].
      * apply Wa. exists a, rest, alt, m, c. repeat split; auto. discriminate.
      * apply Wb. exists b, rest', alt', m2, c2. repeat split; auto.
    + left. unfold with_alt; simpl.
      destruct (merge_alts alt (Some e')) as [m c] eqn:M.
      exists a, rest, alt, m, c. repeat split; auto. discriminate.
    + right; left. unfold with_alt; simpl.
      destruct (merge_alts alt' (Some e)) as [m c] eqn:M.
      exists b, rest', alt', m, c. repeat split; auto.
    + right; right. exists e, e'. repeat split; auto.
      unfold cmp_at.
      destruct (Nat.compare_spec (l_rem e') (l_rem e)) as [H|H|H].
      * assert (L1 : l_rem e <= l_rem e') by lia.
        assert (L2 : l_rem e' <= l_rem e) by lia.
        repeat match goal with
        | |- context [match ?x with Eq => _ | Lt => _ | Gt => _ end] =>
            destruct x; simpl; auto 6
        end.
        right; right. destruct (lmax e e') as [m c] eqn:M. exists m, c. auto.
      * right; left. split; auto. lia.
      * left. split; auto. lia.
Qed.

Lemma branch_alt_calm {A} ts (r : presult Sp A) :
  safe_res ts r -> calm_opt (len ts) (branch_alt (r_out r)).
Proof. intros [_ O]. destruct (r_out r); simpl in *; tauto. Qed.

Lemma safe_or {A} n (p q : parser A) : safe n p -> safe n q -> safe n (p_or p q).
Proof.
  intros Hp Hq ts L. pose proof (Hp ts L) as P. pose proof (Hq ts L) as Q.
  pose proof (branch_alt_calm _ _ P) as BP. pose proof (branch_alt_calm _ _ Q) as BQ.
  destruct P as [CP OP], Q as [CQ OQ].
  destruct (p_or_cases p q ts) as
    [(a & rest & alt & He & Ho & ->)
    |[_ [(a & rest & alt & alt' & c & Ho & He & M & ->)
        |[(a & rest & alt & alt' & c & Ho & M & ->)
         |(ea & eb & Ha & Hb & [[-> _]|[[-> _]|(e & c & M & Le & ->)]])]]]].
  - split; auto.
  - rewrite Ho in OP. destruct OP as [S1 A1].
    eapply merge_alts_calm in M; eauto. destruct M as [M ->].
    split; simpl; auto. now rewrite CP, CQ.
  - rewrite Ho in OQ. destruct OQ as [S1 A1].
    eapply merge_alts_calm in M; eauto. destruct M as [M ->].
    split; simpl; auto. now rewrite CP, CQ.
  - rewrite Ha in OP. split; simpl; auto. now rewrite CP, CQ.
  - rewrite Hb in OQ. split; simpl; auto. now rewrite CP, CQ.
  - rewrite Ha in OP. rewrite Hb in OQ. simpl in *.
    eapply lmax_calm in M; eauto. destruct M as [M ->].
    split; simpl; auto. now rewrite CP, CQ.
Qed.

Lemma eats_or {A} k (p q : parser A) : eats k p -> eats k q -> eats k (p_or p q).
Proof.
  intros Hp Hq ts x rest' alt0 R.
  destruct (p_or_cases p q ts) as
    [(a & rest & alt & He & Ho & X)
    |[_ [(a & rest & alt & alt' & c & Ho & He & M & X)
        |[(a & rest & alt & alt' & c & Ho & M & X)
         |(ea & eb & Ha & Hb & [[X _]|[[X _]|(e & c & M & Le & X)]])]]]];
  rewrite X in R; simpl in R; try discriminate; eauto;
  inversion R; subst; eauto.
Qed.

Lemma safe_choice_from {A} n (ps : list (parser A)) : forall alt ts,
  Forall (safe n) ps -> len ts <= n -> calm_opt (len ts) alt ->
  (alt <> None \/ ps <> []) -> safe_res ts (p_choice_from alt ps ts).
Proof.
  induction ps as [|p ps IH]; intros alt ts F L Ha N; cbn [p_choice_from].
  - destruct alt as [e|]; [|intuition congruence]. split; simpl; auto.
  - inversion F; subst. pose proof (H1 ts L) as [C O].
    destruct (r_out (p ts)) as [a rest alt1|e] eqn:Q; simpl in O.
    + split; auto. rewrite Q. auto.
    + destruct (merge_alts alt (Some e)) as [m c] eqn:M.
      pose proof (merge_alts_calm _ _ _ _ _ Ha (O : calm_opt _ (Some e)) M)
        as [Cm ->].
      destruct (IH m ts H2 L Cm) as [C2 O2].
      { left. intros ->. destruct alt; simpl in M.
        - destruct (lmax e l); discriminate.
        - discriminate. }
      split; simpl; auto. now rewrite C, C2.
Qed.

Lemma safe_choice {A} n (ps : list (parser A)) :
  ps <> [] -> Forall (safe n) ps -> safe n (p_choice ps).
Proof. intros N F ts L. apply safe_choice_from with n; simpl; auto. Qed.

Lemma eats_choice_from {A} k (ps : list (parser A)) :
  Forall (eats k) ps -> forall alt, eats k (p_choice_from alt ps).
Proof.
  induction 1 as [|p ps Hp Hps IH]; intros alt ts a rest alt'; cbn [p_choice_from].
  - destruct alt; discriminate.
  - destruct (r_out (p ts)) as [x r al|e] eqn:Q.
    + rewrite Q. intros X; inversion X; subst. eauto.
    + destruct (merge_alts alt (Some e)). simpl. apply IH.
Qed.

Lemma eats_choice {A} k (ps : list (parser A)) :
  Forall (eats k) ps -> eats k (p_choice ps).
Proof. intros. now apply eats_choice_from. Qed.

Lemma safe_or_not {A} n (p : parser A) : safe n p -> safe n (p_or_not p).
Proof.
  intros H ts L. destruct (H ts L) as [C O]. unfold p_or_not.
  destruct (r_out (p ts)); simpl in O; split; simpl; auto using suffix_refl.
Qed.

Lemma eats_or_not {A} (p : parser A) : eats 0 p -> eats 0 (p_or_not p).
Proof.
  intros H ts a rest alt. unfold p_or_not.
  destruct (r_out (p ts)) eqn:Q; simpl; intros X; inversion X; subst.
  - eauto.
  - lia.
Qed.

Lemma safe_rewind {A} n (p : parser A) : safe n p -> safe n (p_rewind p).
Proof.
  intros H ts L. destruct (H ts L) as [C O]. split; simpl; auto.
  destruct (r_out (p ts)); simpl in *; intuition auto using suffix_refl.
Qed.

Lemma eats_rewind {A} (p : parser A) : eats 0 (p_rewind p).
Proof.
  intros ts a rest alt. simpl. destruct (r_out (p ts)); [|discriminate].
  intros X; inversion X; subst. lia.
Qed.

Lemma repeat_loop_safe {A} n (p : parser A) al am :
  safe n p -> eats 1 p -> forall fuel errs outs alt old ts ts0,
  len ts <= n -> suffix ts ts0 -> calm_opt (len ts0) alt ->
  (forall o, old = Some o -> o = len ts) ->
  2 + len ts <= fuel ->
  safe_res ts0 (repeat_loop fuel p al am errs outs alt old [] ts).
Proof.
  intros Hp He. induction fuel as [|fuel IH]; intros errs outs alt old ts ts0
    L S0 Ca Hold F; [lia|].
  cbn [repeat_loop].
  match goal with |- context [if ?s then _ else _] => destruct s end.
  { split; simpl; auto. }
  destruct (Hp ts L) as [C O].
  destruct (r_out (p ts)) as [a rest alt1|e] eqn:Q; simpl in O.
  - destruct O as [S1 A1]. pose proof (He _ _ _ _ Q) as L1.
    pose proof (suffix_len _ _ S0) as L0.
    destruct (merge_alts alt alt1) as [m c] eqn:M.
    eapply (merge_alts_calm (len ts0)) in M; eauto using calm_opt_weaken.
    destruct M as [M ->].
    match goal with |- context [if ?s then _ else _] => destruct s eqn:NP end.
    { exfalso. destruct old as [o|]; [|discriminate].
      apply Nat.eqb_eq in NP. specialize (Hold o eq_refl). lia. }
    rewrite C. cbn [app].
    apply IH; auto; try lia.
    + eapply suffix_trans; eauto.
    + now intros o [= <-].
  - pose proof (suffix_len _ _ S0) as L0.
    destruct (_ <? _).
    + split; simpl; [now rewrite C|]. eapply calm_weaken; eauto.
    + destruct (merge_alts alt (Some e)) as [m c] eqn:M.
      eapply (merge_alts_calm (len ts0)) in M; eauto.
      * destruct M as [M ->]. split; simpl; [now rewrite C|]. auto.
      * simpl. eapply calm_weaken; eauto.
Qed.

Lemma safe_repeat {A} n al am (p : parser A) :
  safe n p -> eats 1 p -> safe n (p_repeat al am p).
Proof.
  intros Hp He ts L. unfold p_repeat.
  eapply repeat_loop_safe; eauto using suffix_refl; simpl; auto; try discriminate.
Qed.

Lemma repeat_loop_eats {A} (p : parser A) al am :
  eats 1 p -> forall fuel errs outs alt old cr ts a rest alt',
  2 + len ts <= fuel -> (forall o, old = Some o -> o = len ts) ->
  match am with Some m => al <= m | None => True end ->
  r_out (repeat_loop fuel p al am errs outs alt old cr ts) = Ok a rest alt' ->
  len rest + List.length a <= len ts + List.length outs /\ al <= List.length a.
Proof.
  intros He. induction fuel as [|fuel IH]; intros errs outs alt old cr ts a rest
    alt' F Ho Ham; cbn [repeat_loop]; [lia|].
  destruct (match am with Some m => m <=? List.length outs | None => false end) eqn:St.
  { simpl. intros X; inversion X; subst. rewrite rev_length. split; [lia|].
    destruct am as [m|]; [|discriminate]. apply Nat.leb_le in St. lia. }
  destruct (r_out (p ts)) as [x r alt1|e] eqn:Q.
  - destruct (merge_alts alt alt1) as [m c].
    pose proof (He _ _ _ _ Q) as L1.
    destruct (match old with Some o => o =? len r | None => false end) eqn:NP.
    + destruct old as [o|]; [|discriminate]. apply Nat.eqb_eq in NP.
      specialize (Ho o eq_refl). lia.
    + intros X. apply IH in X; auto; try lia.
      * simpl in X. lia.
      * now intros o [= <-].
  - destruct (List.length outs <? al) eqn:Lt; [discriminate|].
    destruct (merge_alts alt (Some e)). simpl. intros X; inversion X; subst.
    rewrite rev_length. apply Nat.ltb_ge in Lt. split; [lia|auto].
Qed.

Lemma eats_repeat {A} al am (p : parser A) :
  eats 1 p -> match am with Some m => al <= m | None => True end ->
  eats al (p_repeat al am p).
Proof.
  intros He Ham ts a rest alt Q. unfold p_repeat in Q.
  apply repeat_loop_eats in Q; simpl in *; auto; try discriminate; lia.
Qed.

Lemma until_loop_safe {A} n (p : parser A) : safe n p -> forall ts ts0 alt outs,
  len ts <= n -> suffix ts ts0 -> calm_opt (len ts0) alt ->
  safe_res ts0 (until_loop p alt outs [] ts).
Proof.
  intros Hp. induction ts as [|[ch sp] ts IH]; intros ts0 alt outs L S0 Ca;
    pose proof (suffix_len _ _ S0) as L0; cbn [until_loop];
    match goal with |- context [p ?t] => destruct (Hp t L) as [C O];
      destruct (r_out (p t)) as [a rest a_alt|e] eqn:Q end; simpl in O.
  1, 3: destruct O as [S1 A1];
    destruct (merge_alts alt a_alt) as [m c] eqn:M;
    eapply (merge_alts_calm (len ts0)) in M; eauto using calm_opt_weaken;
    destruct M as [M ->]; split; simpl; [now rewrite C|];
    split; auto; eapply suffix_trans; eauto.
  - split; simpl; [now rewrite C|]. eapply calm_weaken; eauto.
  - destruct (merge_alts alt (Some e)) as [m c] eqn:M.
    eapply (merge_alts_calm (len ts0)) in M; eauto.
    + destruct M as [M ->]. rewrite C. cbn [app]. apply IH; auto.
      * simpl in L. lia.
      * eapply suffix_tail; eauto.
    + simpl. eapply calm_weaken; eauto.
Qed.

Lemma safe_take_until {A} n (p : parser A) : safe n p -> safe n (p_take_until p).
Proof.
  intros H ts L. apply until_loop_safe with n; simpl; auto using suffix_refl.
Qed.

Lemma until_loop_eats {A} k (p : parser A) : eats k p ->
  forall ts alt outs cr a rest alt',
  r_out (until_loop p alt outs cr ts) = Ok a rest alt' -> len rest + k <= len ts.
Proof.
  intros Hp. induction ts as [|[ch sp] ts IH]; intros alt outs cr a rest alt';
    cbn [until_loop];
    match goal with |- context [p ?t] =>
      destruct (r_out (p t)) as [x r a_alt|e] eqn:Q end.
  1, 3: destruct (merge_alts alt a_alt); simpl; intros X; inversion X; subst;
     apply Hp in Q; simpl in *; lia.
  - discriminate.
  - destruct (merge_alts alt (Some e)). intros X. apply IH in X. simpl. lia.
Qed.

Lemma eats_take_until {A} k (p : parser A) : eats k p -> eats k (p_take_until p).
Proof. intros H ts a rest alt Q. eapply until_loop_eats; eauto. Qed.

Lemma skip_to_suffix f ts rest : skip_to f ts = Some rest -> suffix rest ts.
Proof.
  induction ts as [|[c s] ts IH]; simpl; [discriminate|].
  destruct (f c).
  - intros [= <-]. apply suffix_refl.
  - intros H. apply suffix_cons; auto.
Qed.

(** The errors of a recovering parser may be of any kind, provided that it only
    fails when the error can be merged. *)
Definition safe_recover {A} (n : nat) (f : char -> bool) (p : parser A) : Prop :=
  forall ts, len ts <= n ->
    r_crash (p ts) = [] /\
    match r_out (p ts) with
    | Ok a rest alt => suffix rest ts /\ calm_opt (len ts) alt
    | Err e => skip_to f ts = None -> calm_err (len ts) e
    end.

Lemma safe_recover_skip_until {A} n f (x : A) p :
  safe_recover n f p -> safe n (p_recover_skip_until f x p).
Proof.
  intros H ts L. destruct (H ts L) as [C O]. unfold p_recover_skip_until.
  destruct (r_out (p ts)) as [a rest alt|e] eqn:Q.
  - split; auto. rewrite Q. auto.
  - destruct (skip_to f ts) eqn:K.
    + split; simpl; auto. split; auto. eapply skip_to_suffix; eauto.
    + split; auto. rewrite Q. simpl. auto.
Qed.

(** Parsers that never emit errors. *)
Definition quiet {A} (p : parser A) : Prop := forall ts, r_errs (p ts) = [].

(** [separated_by]: the delimiter must be quiet, because its errors become
    alternative errors. *)
Lemma sep_or_not_safe {B} n (d : parser B) alt ts ts0 m rest c :
  safe n d -> quiet d -> len ts <= n -> suffix ts ts0 -> calm_opt (len ts0) alt ->
  sep_or_not d alt ts = (m, rest, c) ->
  calm_opt (len ts0) m /\ suffix rest ts /\ c = [].
Proof.
  intros Hd Hq L S0 Ca. destruct (Hd ts L) as [C O]. unfold sep_or_not.
  rewrite (Hq ts), C. cbn [merge_alts_list app].
  pose proof (suffix_len _ _ S0) as L0.
  destruct (r_out (d ts)) as [x r alt1|e]; simpl in O.
  - destruct O as [S1 A1].
    destruct (merge_alts alt alt1) as [m1 c1] eqn:M.
    eapply (merge_alts_calm (len ts0)) in M; eauto using calm_opt_weaken.
    destruct M as [M ->]. intros X; inversion X; subst. auto.
  - destruct (merge_alts alt (Some e)) as [m1 c1] eqn:M.
    eapply (merge_alts_calm (len ts0)) in M; eauto.
    + destruct M as [M ->]. intros X; inversion X; subst. auto using suffix_refl.
    + simpl. eapply calm_weaken; eauto.
Qed.

End Safe.
