(** An upper bound on the steps: a polynomial in the length of the text, times
    two for every comment that is opened. *)

From Coq Require Import NArith PeanoNat List Bool String Lia.
From Verif Require Import Chars Ast Errors Chumsky Spans Grammar Safe Kdl Good LexSpace
  Steps StepsProps.
Import ListNotations.
Local Open Scope nat_scope.
Local Open Scope list_scope.

Section Shrinks.
Context {Sp : Type} {E : env Sp}.

Notation parser := (parser Sp).
Notation toks := (toks Sp).
Notation len := (@List.length (tok Sp)).

(** ** What is left is a suffix of the input *)

Definition shrinks {A} (p : parser A) : Prop :=
  forall ts a rest alt, r_out (p ts) = Ok a rest alt -> suffix rest ts.

Lemma shrinks_filter f : shrinks (p_filter f).
Proof.
  intros [|[c s] ts] a rest alt; unfold p_filter; [discriminate|].
  destruct (f c); cbn [r_out fail]; [|discriminate]. intros Q; inversion Q; subst.
  exists [(a, s)]. reflexivity.
Qed.

Lemma shrinks_just x : shrinks (p_just x).
Proof.
  intros [|[c s] ts] a rest alt; unfold p_just; [discriminate|].
  destruct (N.eqb c x); cbn [r_out fail]; [|discriminate]. intros Q; inversion Q; subst.
  exists [(a, s)]. reflexivity.
Qed.

Lemma shrinks_just_str s : shrinks (p_just_str s).
Proof.
  induction s as [|x s IH]; intros ts a rest alt; cbn [p_just_str].
  - cbn [r_out]. intros Q; inversion Q; subst. apply suffix_refl.
  - destruct ts as [|[c sp] ts]; [discriminate|].
    destruct (N.eqb c x); [|discriminate]. intros Q. apply suffix_cons. eapply IH, Q.
Qed.

Lemma shrinks_end : shrinks p_end.
Proof.
  intros [|x ts] a rest alt; cbn [p_end r_out fail]; [|discriminate].
  intros Q; inversion Q; subst. apply suffix_refl.
Qed.

Lemma shrinks_filter_map {A} (f : Sp -> char -> A + perror Sp) : shrinks (p_filter_map f).
Proof.
  intros [|[c s] ts] a rest alt; unfold p_filter_map; [discriminate|].
  destruct (f s c); cbn [r_out fail]; [|discriminate]. intros Q; inversion Q; subst.
  exists [(c, s)]. reflexivity.
Qed.

Lemma shrinks_map {A B} (f : A -> B) p : shrinks p -> shrinks (p_map f p).
Proof.
  intros H ts b rest alt. unfold p_map. cbn [r_out].
  destruct (r_out (p ts)) as [a r al|e] eqn:Q; [|discriminate].
  intros X; inversion X; subst. eapply H, Q.
Qed.

Lemma shrinks_ignored {A} (p : parser A) : shrinks p -> shrinks (p_ignored p).
Proof. apply shrinks_map. Qed.

Lemma shrinks_map_with_span {A B} (f : A -> Sp -> B) p : shrinks p -> shrinks (p_map_with_span f p).
Proof.
  intros H ts b rest alt. unfold p_map_with_span. cbn [r_out].
  destruct (r_out (p ts)) as [a r al|e] eqn:Q; [|discriminate].
  intros X; inversion X; subst. eapply H, Q.
Qed.

Lemma shrinks_map_err {A} f (p : parser A) : shrinks p -> shrinks (p_map_err f p).
Proof.
  intros H ts b rest alt. unfold p_map_err. cbn [r_out].
  destruct (r_out (p ts)) as [a r al|e] eqn:Q; [|discriminate].
  intros X; inversion X; subst. eapply H, Q.
Qed.

Lemma shrinks_map_err_with_span {A} f (p : parser A) :
  shrinks p -> shrinks (p_map_err_with_span f p).
Proof.
  intros H ts b rest alt. unfold p_map_err_with_span.
  destruct (r_out (p ts)) as [a r al|e] eqn:Q.
  - rewrite Q. intros X; inversion X; subst. eapply H, Q.
  - destruct (f _ _); discriminate.
Qed.

Lemma shrinks_try_map {A B} (f : A -> Sp -> B + perror Sp) p : shrinks p -> shrinks (p_try_map f p).
Proof.
  intros H ts b rest alt. unfold p_try_map. cbn [r_out].
  destruct (r_out (p ts)) as [a r al|e] eqn:Q; [|discriminate].
  destruct (f _ _); [|discriminate]. intros X; inversion X; subst. eapply H, Q.
Qed.

Lemma shrinks_validate {A B} (f : A -> Sp -> B * option (perror Sp)) p :
  shrinks p -> shrinks (p_validate f p).
Proof.
  intros H ts b rest alt. unfold p_validate.
  destruct (r_out (p ts)) as [a r al|e] eqn:Q; [|discriminate].
  destruct (f _ _). intros X; inversion X; subst. eapply H, Q.
Qed.

Lemma shrinks_bind {A B} (p : parser A) (q : A -> parser B) :
  shrinks p -> (forall a, shrinks (q a)) -> shrinks (p_bind p q).
Proof.
  intros P H ts b rest alt. unfold p_bind.
  destruct (r_out (p ts)) as [a r al|e] eqn:Q; [|discriminate].
  destruct (r_out (q a r)) as [b' r2 al2|e] eqn:Q2.
  - destruct (merge_alts al al2). intros X; inversion X; subst.
    eapply suffix_trans; [eapply H, Q2|eapply P, Q].
  - destruct (lmax_opt e al). discriminate.
Qed.

Lemma shrinks_then {A B} (p : parser A) (q : parser B) :
  shrinks p -> shrinks q -> shrinks (p_then p q).
Proof. intros P Q. apply shrinks_bind; auto. Qed.

Lemma shrinks_ignore_then {A B} (p : parser A) (q : parser B) :
  shrinks p -> shrinks q -> shrinks (p_ignore_then p q).
Proof. intros P Q. apply shrinks_map, shrinks_then; auto. Qed.

Lemma shrinks_then_ignore {A B} (p : parser A) (q : parser B) :
  shrinks p -> shrinks q -> shrinks (p_then_ignore p q).
Proof. intros P Q. apply shrinks_map, shrinks_then; auto. Qed.

Lemma shrinks_delimited {A B C} (p : parser A) (o : parser B) (c : parser C) :
  shrinks p -> shrinks o -> shrinks c -> shrinks (p_delimited p o c).
Proof. intros. apply shrinks_then_ignore; auto. apply shrinks_ignore_then; auto. Qed.

Lemma with_alt_out {A} cr (r o : presult Sp A) a rest alt :
  r_out (add_crash cr (with_alt r o)) = Ok a rest alt ->
  exists alt', r_out r = Ok a rest alt'.
Proof.
  unfold add_crash, with_alt. cbn [r_out].
  destruct (r_out r) as [a' r' al|e] eqn:Q.
  - destruct (merge_alts _ _). cbn [r_out]. intros X; inversion X; subst. eauto.
  - rewrite Q. discriminate.
Qed.

Lemma or_out {A} (p q : parser A) ts a rest alt :
  r_out (p_or p q ts) = Ok a rest alt ->
  exists alt', r_out (p ts) = Ok a rest alt' \/ r_out (q ts) = Ok a rest alt'.
Proof.
  unfold p_or.
  destruct (r_out (p ts)) as [a1 r1 l1|e1] eqn:Q1;
    destruct (r_out (q ts)) as [a2 r2 l2|e2] eqn:Q2;
    destruct (r_errs (p ts)) eqn:Q3;
    repeat match goal with
    | |- context [match Nat.compare ?x ?y with _ => _ end] => destruct (Nat.compare x y)
    | |- context [match cmp_last ?x ?y with _ => _ end] => destruct (cmp_last x y)
    | |- context [match cmp_alt ?x ?y with _ => _ end] => destruct (cmp_alt x y)
    | |- context [match cmp_at ?x ?y with _ => _ end] => destruct (cmp_at x y)
    | |- context [let '(_, _) := lmax ?x ?y in _] => destruct (lmax x y)
    end; intros X;
    try (apply with_alt_out in X; destruct X as [al X]; exists al; rewrite <- X, ?Q1, ?Q2; auto; fail);
    try (rewrite Q1 in X; eauto; fail);
    try (unfold add_crash in X; cbn [r_out] in X; congruence).
Qed.

Lemma shrinks_or {A} (p q : parser A) : shrinks p -> shrinks q -> shrinks (p_or p q).
Proof.
  intros P Q ts a rest alt H. apply or_out in H. destruct H as [al [H|H]]; [eapply P, H|eapply Q, H].
Qed.

Lemma shrinks_choice {A} (ps : list (parser A)) : Forall shrinks ps -> shrinks (p_choice ps).
Proof.
  intros F ts a rest alt. unfold p_choice. generalize (@None (located Sp)).
  induction F as [|p ps P F IH]; intros o; cbn [p_choice_from].
  - destruct o; discriminate.
  - destruct (r_out (p ts)) as [a' r al|e] eqn:Q.
    + rewrite Q. intros X; inversion X; subst. eapply P, Q.
    + destruct (merge_alts o (Some e)). unfold add_crash. cbn [r_out]. apply IH.
Qed.

Lemma shrinks_or_not {A} (p : parser A) : shrinks p -> shrinks (p_or_not p).
Proof.
  intros P ts a rest alt. unfold p_or_not.
  destruct (r_out (p ts)) as [a' r al|e] eqn:Q; cbn [r_out]; intros X; inversion X; subst.
  - eapply P, Q.
  - apply suffix_refl.
Qed.

Lemma shrinks_rewind {A} (p : parser A) : shrinks (p_rewind p).
Proof.
  intros ts a rest alt. unfold p_rewind. cbn [r_out].
  destruct (r_out (p ts)); intros X; inversion X; subst. apply suffix_refl.
Qed.

Lemma shrinks_repeat {A} al am (p : parser A) : shrinks p -> shrinks (p_repeat al am p).
Proof.
  intros P ts l rest alt. unfold p_repeat.
  assert (forall fuel errs outs alt old cr ts l rest alt',
    r_out (repeat_loop fuel p al am errs outs alt old cr ts) = Ok l rest alt' ->
    suffix rest ts) as L; [|apply L].
  induction fuel as [|fuel IH]; intros errs outs alt0 old cr t l0 rest0 alt';
    cbn [repeat_loop].
  - cbn [r_out]. intros X; inversion X; subst. apply suffix_refl.
  - destruct (match am with Some m => m <=? List.length outs | None => false end).
    { cbn [r_out]. intros X; inversion X; subst. apply suffix_refl. }
    destruct (r_out (p t)) as [a r a_alt|e] eqn:Q.
    + apply P in Q. destruct (merge_alts alt0 a_alt) as [m c].
      destruct (match old with Some o => o =? List.length r | None => false end).
      * cbn [r_out]. intros X; inversion X; subst. exact Q.
      * intros X. apply IH in X. eapply suffix_trans; eauto.
    + destruct (List.length outs <? al); [discriminate|].
      destruct (merge_alts alt0 (Some e)). cbn [r_out]. intros X; inversion X; subst.
      apply suffix_refl.
Qed.

Lemma shrinks_take_until {A} (p : parser A) : shrinks p -> shrinks (p_take_until p).
Proof.
  intros P ts x rest alt. unfold p_take_until.
  generalize (@None (located Sp)), (@nil char), (@nil crash).
  induction ts as [|[c s] ts IH]; intros o outs cr; cbn [until_loop].
  - destruct (r_out (p [])) as [a r al|e] eqn:Q; [|discriminate].
    destruct (merge_alts o al). cbn [r_out]. intros X; inversion X; subst. eapply P, Q.
  - match goal with |- context [r_out (p ?x)] => destruct (r_out (p x)) as [a r al|e] eqn:Q end.
    + destruct (merge_alts o al). cbn [r_out]. intros X; inversion X; subst. eapply P, Q.
    + destruct (merge_alts o (Some e)). intros X. apply suffix_cons. eapply IH, X.
Qed.

Lemma skip_to_suffix f : forall (ts rest : toks), skip_to f ts = Some rest -> suffix rest ts.
Proof.
  induction ts as [|[c s] ts IH]; intros rest; cbn [skip_to]; [discriminate|].
  destruct (f c).
  - intros X; inversion X; subst. apply suffix_refl.
  - intros X. apply suffix_cons, IH, X.
Qed.

Lemma shrinks_recover {A} f (d : A) p : shrinks p -> shrinks (p_recover_skip_until f d p).
Proof.
  intros P ts a rest alt. unfold p_recover_skip_until.
  destruct (r_out (p ts)) as [a' r al|e] eqn:Q.
  - rewrite Q. intros X; inversion X; subst. eapply P, Q.
  - destruct (skip_to f ts) as [r|] eqn:K.
    + cbn [r_out]. intros X; inversion X; subst. eapply skip_to_suffix, K.
    + rewrite Q. discriminate.
Qed.

(** [separated_by]: the place after the last item and after the delimiter. *)
Definition after_p {B} (d : parser B) (ts : toks) : toks :=
  match r_out (d ts) with Ok _ rest _ => rest | Err _ => ts end.

Lemma sep_or_not_after {B} (d : parser B) alt ts : snd (fst (sep_or_not d alt ts)) = after_p d ts.
Proof.
  unfold sep_or_not, after_p. destruct (r_out (d ts)) as [a r al|e].
  - destruct (merge_alts_list al (r_errs (d ts))) as [m c].
    destruct (merge_alts alt m). reflexivity.
  - destruct (merge_alts_list (Some e) (r_errs (d ts))) as [m c].
    destruct (merge_alts alt m). reflexivity.
Qed.

Lemma after_suffix {B} (d : parser B) ts : shrinks d -> suffix (after_p d ts) ts.
Proof.
  intros D. unfold after_p. destruct (r_out (d ts)) eqn:Q; [eapply D, Q|apply suffix_refl].
Qed.

Lemma sep_loop_last {A B} (item : timed Sp A) (d : timed Sp B) : forall fuel errs outs alt cr ts,
  snd (fst (fst (sep_loop fuel (t_parser item) (t_parser d) errs outs alt cr ts)))
  = snd (sep_steps fuel item d ts).
Proof.
  induction fuel as [|fuel IH]; intros errs outs alt cr ts; cbn [sep_loop sep_steps]; [reflexivity|].
  destruct (r_out (t_parser d ts)) as [x rest d_alt|e]; [|reflexivity].
  destruct (merge_alts alt d_alt) as [alt1 c1].
  destruct (r_out (t_parser item rest)) as [a rest' i_alt|e]; [|reflexivity].
  destruct (merge_alts alt1 i_alt) as [alt2 c2]. rewrite IH.
  destruct (sep_steps fuel item d rest'). reflexivity.
Qed.

Lemma sep_steps_suffix {A B} (item : timed Sp A) (d : timed Sp B) :
  shrinks (t_parser item) -> shrinks (t_parser d) ->
  forall fuel ts, suffix (snd (sep_steps fuel item d ts)) ts.
Proof.
  intros I D. induction fuel as [|fuel IH]; intros ts; cbn [sep_steps]; [apply suffix_refl|].
  destruct (r_out (t_parser d ts)) as [x rest d_alt|e] eqn:Q; [|apply suffix_refl].
  destruct (r_out (t_parser item rest)) as [a rest' i_alt|e] eqn:Q2; [|apply suffix_refl].
  specialize (IH rest'). destruct (sep_steps fuel item d rest') as [k last].
  cbn [snd] in *. eapply suffix_trans; [exact IH|]. eapply suffix_trans; [eapply I, Q2|eapply D, Q].
Qed.

(** Where [separated_by] ends. *)
Lemma separated_out {A B} (item : timed Sp A) (d : timed Sp B) ts :
  let ts0 := after_p (t_parser d) ts in
  exists l alt,
  r_out (p_separated (t_parser item) (t_parser d) ts)
  = Ok l (match r_out (t_parser item ts0) with
          | Err _ => ts0
          | Ok _ rest _ =>
              after_p (t_parser d) (snd (sep_steps (S (len ts)) item d rest))
          end) alt.
Proof.
  intros ts0. unfold p_separated. subst ts0.
  rewrite <- (sep_or_not_after (t_parser d) None ts).
  destruct (sep_or_not (t_parser d) None ts) as [[alt0 ts0] c0]. cbn [fst snd].
  destruct (r_out (t_parser item ts0)) as [a rest i_alt|e].
  - destruct (merge_alts alt0 i_alt) as [alt1 c1].
    rewrite <- (sep_loop_last item d _ (r_errs (t_parser item ts0)) [a] alt1
                  (c0 ++ r_crash (t_parser item ts0) ++ c1)).
    destruct (sep_loop _ _ _ _ _ _ _ _) as [[[[[errs outs] alt2] ts2] err] c2].
    cbn [fst snd]. rewrite <- (sep_or_not_after (t_parser d) alt2 ts2).
    destruct (sep_or_not (t_parser d) alt2 ts2) as [[alt3 ts3] c3]. cbn [fst snd].
    destruct (merge_alts alt3 err). cbn [r_out]. eauto.
  - destruct (merge_alts alt0 (Some e)). cbn [r_out]. eauto.
Qed.

Lemma shrinks_separated {A B} (item : timed Sp A) (d : timed Sp B) :
  shrinks (t_parser item) -> shrinks (t_parser d) -> shrinks (t_parser (t_separated item d)).
Proof.
  intros I D ts l rest alt H.
  destruct (separated_out item d ts) as [l' [alt' Q]].
  unfold t_separated in H. cbn [t_parser] in H. rewrite Q in H.
  match type of H with Ok _ ?X _ = _ => assert (rest = X) as -> by congruence end. clear H Q.
  destruct (r_out (t_parser item (after_p (t_parser d) ts))) as [a r al|e] eqn:R.
  - eapply suffix_trans; [apply after_suffix, D|].
    eapply suffix_trans; [apply sep_steps_suffix; auto|].
    eapply suffix_trans; [eapply I, R|apply after_suffix, D].
  - apply after_suffix, D.
Qed.

(** ** The parsers of the grammar *)

Lemma shrinks_repeated {A} (p : parser A) : shrinks p -> shrinks (p_repeated p).
Proof. apply shrinks_repeat. Qed.

Lemma shrinks_exactly {A} n (p : parser A) : shrinks p -> shrinks (p_exactly n p).
Proof. apply shrinks_repeat. Qed.

Lemma shrinks_none_of x : shrinks (p_none_of x).
Proof. apply shrinks_filter. Qed.

Lemma shrinks_spanned {A} (p : parser A) : shrinks p -> shrinks (p_spanned p).
Proof. apply shrinks_map_with_span. Qed.

End Shrinks.

#[export] Hint Resolve shrinks_filter shrinks_just shrinks_just_str shrinks_end shrinks_filter_map
  shrinks_map shrinks_ignored shrinks_map_with_span shrinks_map_err shrinks_map_err_with_span
  shrinks_try_map shrinks_validate shrinks_bind shrinks_then shrinks_ignore_then
  shrinks_then_ignore shrinks_delimited shrinks_or shrinks_choice shrinks_or_not shrinks_rewind
  shrinks_repeat shrinks_take_until shrinks_recover shrinks_repeated shrinks_exactly
  shrinks_none_of shrinks_spanned : shrinks.

Section Cheap.
Context {Sp : Type}.

Notation parser := (parser Sp).
Notation timed := (timed Sp).
Notation toks := (toks Sp).
Notation len := (@List.length (tok Sp)).

(** ** Polynomially many steps, given a bound [M] on those of each comment *)

(** Steps at every place of the input [W]. *)
Definition at_most {A} (p : timed A) (W : toks) (b : nat) : Prop :=
  forall ts, suffix ts W -> t_steps p ts <= b.

Definition poly (W : toks) (k M : nat) : nat := (len W + 3) ^ k * (M + 1).

(** The same polynomial for each place of the end of the input. *)
Definition cheap {A} (p : env Sp -> timed A) : Prop :=
  (forall E, shrinks (t_parser (p E))) /\
  exists K k, forall (E : env Sp) W M,
    at_most t_ml_comment W M -> at_most (p E) W (K * poly W k M).

Lemma poly_le W k j M : k <= j -> poly W k M <= poly W j M.
Proof.
  intros L. unfold poly. apply Nat.mul_le_mono_r, Nat.pow_le_mono_r; lia.
Qed.

Lemma poly_pos W k M : 1 <= poly W k M.
Proof.
  unfold poly. assert ((len W + 3) ^ k <> 0) by (apply Nat.pow_nonzero; lia). nia.
Qed.

Lemma poly_succ W k M : poly W (S k) M = (len W + 3) * poly W k M.
Proof. unfold poly. cbn [Nat.pow]. lia. Qed.

Lemma cheap_const {A} (p : env Sp -> timed A) c :
  (forall E, shrinks (t_parser (p E))) -> (forall E ts, t_steps (p E) ts <= c) -> cheap p.
Proof.
  intros S H. split; [exact S|]. exists c, 0. intros E W M _ ts _.
  specialize (H E ts). pose proof (poly_pos W 0 M). nia.
Qed.

(** The same steps. *)
Lemma cheap_same {A B} (p : env Sp -> timed A) (q : env Sp -> timed B) :
  (forall E, shrinks (t_parser (q E))) -> (forall E, t_steps (q E) = t_steps (p E)) ->
  cheap p -> cheap q.
Proof.
  intros S Q [_ [K [k H]]]. split; [exact S|]. exists K, k. intros E W M HM ts T.
  rewrite Q. apply H; auto.
Qed.

Lemma cheap_filter f : cheap (fun E => t_filter (f E)).
Proof. apply cheap_const with 1; intros; [apply shrinks_filter|auto]. Qed.
Lemma cheap_none_of x : cheap (fun E => t_none_of x).
Proof. apply cheap_const with 1; intros; [apply shrinks_filter|auto]. Qed.
Lemma cheap_just x : cheap (fun E => t_just x).
Proof. apply cheap_const with 1; intros; [apply shrinks_just|auto]. Qed.
Lemma cheap_end : cheap (fun E => t_end).
Proof. apply cheap_const with 1; intros; [apply shrinks_end|auto]. Qed.
Lemma cheap_filter_map {A} (f : env Sp -> Sp -> char -> A + perror Sp) :
  cheap (fun E => t_filter_map (f E)).
Proof. apply cheap_const with 1; intros; [apply shrinks_filter_map|auto]. Qed.
Lemma just_str_bound s : forall ts : toks, just_str_steps s ts <= List.length s.
Proof.
  induction s as [|x s IH]; intros ts; cbn [just_str_steps List.length]; [lia|].
  destruct ts as [|[c sp] ts]; [lia|]. destruct (N.eqb c x); [|lia]. specialize (IH ts). lia.
Qed.
Lemma cheap_just_str s : cheap (fun E => t_just_str s).
Proof. apply cheap_const with (List.length s); intros; [apply shrinks_just_str|apply just_str_bound]. Qed.

Lemma cheap_map {A B} (f : env Sp -> A -> B) p : cheap p -> cheap (fun E => t_map (f E) (p E)).
Proof. intros H. apply (cheap_same p); intros; [apply shrinks_map, H|reflexivity|exact H]. Qed.
Lemma cheap_ignored {A} (p : env Sp -> timed A) : cheap p -> cheap (fun E => t_ignored (p E)).
Proof. intros H. apply (cheap_same p); intros; [apply shrinks_ignored, H|reflexivity|exact H]. Qed.
Lemma cheap_map_with_span {A B} (f : env Sp -> A -> Sp -> B) p :
  cheap p -> cheap (fun E => t_map_with_span (f E) (p E)).
Proof. intros H. apply (cheap_same p); intros; [apply shrinks_map_with_span, H|reflexivity|exact H]. Qed.
Lemma cheap_spanned {A} (p : env Sp -> timed A) : cheap p -> cheap (fun E => t_spanned (p E)).
Proof. apply (cheap_map_with_span (fun _ => _)). Qed.
Lemma cheap_map_err {A} f (p : env Sp -> timed A) :
  cheap p -> cheap (fun E => t_map_err (f E) (p E)).
Proof. intros H. apply (cheap_same p); intros; [apply shrinks_map_err, H|reflexivity|exact H]. Qed.
Lemma cheap_map_err_with_span {A} f (p : env Sp -> timed A) :
  cheap p -> cheap (fun E => t_map_err_with_span (f E) (p E)).
Proof.
  intros H. apply (cheap_same p); intros; [apply shrinks_map_err_with_span, H|reflexivity|exact H].
Qed.
Lemma cheap_try_map {A B} (f : env Sp -> A -> Sp -> B + perror Sp) p :
  cheap p -> cheap (fun E => t_try_map (f E) (p E)).
Proof. intros H. apply (cheap_same p); intros; [apply shrinks_try_map, H|reflexivity|exact H]. Qed.
Lemma cheap_validate {A B} (f : env Sp -> A -> Sp -> B * option (perror Sp)) p :
  cheap p -> cheap (fun E => t_validate (f E) (p E)).
Proof. intros H. apply (cheap_same p); intros; [apply shrinks_validate, H|reflexivity|exact H]. Qed.
Lemma cheap_rewind {A} (p : env Sp -> timed A) : cheap p -> cheap (fun E => t_rewind (p E)).
Proof. intros H. apply (cheap_same p); intros; [apply shrinks_rewind|reflexivity|exact H]. Qed.
Lemma cheap_or_not {A} (p : env Sp -> timed A) : cheap p -> cheap (fun E => t_or_not (p E)).
Proof. intros H. apply (cheap_same p); intros; [apply shrinks_or_not, H|reflexivity|exact H]. Qed.

(** Two in a row. *)
Lemma poly_add K1 k1 K2 k2 W M x y :
  x <= K1 * poly W k1 M -> y <= K2 * poly W k2 M ->
  x + y <= (K1 + K2) * poly W (k1 + k2) M.
Proof.
  intros X Y. pose proof (poly_le W k1 (k1 + k2) M ltac:(lia)).
  pose proof (poly_le W k2 (k1 + k2) M ltac:(lia)). nia.
Qed.

Lemma cheap_bind {A B} (p : env Sp -> timed A) (q : env Sp -> A -> timed B) :
  cheap p -> (forall E a, shrinks (t_parser (q E a))) ->
  (exists K k, forall (E : env Sp) W M, at_most t_ml_comment W M ->
     forall a, at_most (q E a) W (K * poly W k M)) ->
  cheap (fun E => t_bind (p E) (q E)).
Proof.
  intros [S [K1 [k1 P]]] S2 [K2 [k2 Q]]. split; [intros; apply shrinks_bind; auto|].
  exists (K1 + K2), (k1 + k2). intros E W M HM ts T. unfold t_bind. cbn [t_steps].
  apply poly_add; [apply P; auto|].
  destruct (r_out (t_parser (p E) ts)) as [a rest alt|e] eqn:R; [|lia].
  apply Q; auto. eapply suffix_trans; [eapply S, R|exact T].
Qed.

Lemma cheap_then {A B} (p : env Sp -> timed A) (q : env Sp -> timed B) :
  cheap p -> cheap q -> cheap (fun E => t_then (p E) (q E)).
Proof.
  intros P [S [K [k Q]]]. unfold t_then. apply cheap_bind.
  - exact P.
  - intros. apply S.
  - exists K, k. intros E W M HM _. apply Q, HM.
Qed.
Lemma cheap_ignore_then {A B} (p : env Sp -> timed A) (q : env Sp -> timed B) :
  cheap p -> cheap q -> cheap (fun E => t_ignore_then (p E) (q E)).
Proof. intros P Q. apply (cheap_map (fun _ => snd)), cheap_then; auto. Qed.
Lemma cheap_then_ignore {A B} (p : env Sp -> timed A) (q : env Sp -> timed B) :
  cheap p -> cheap q -> cheap (fun E => t_then_ignore (p E) (q E)).
Proof. intros P Q. apply (cheap_map (fun _ => fst)), cheap_then; auto. Qed.
Lemma cheap_delimited {A B C} (p : env Sp -> timed A) (o : env Sp -> timed B)
    (c : env Sp -> timed C) :
  cheap p -> cheap o -> cheap c -> cheap (fun E => t_delimited (p E) (o E) (c E)).
Proof.
  intros. unfold t_delimited. apply cheap_then_ignore; auto. apply cheap_ignore_then; auto.
Qed.

Lemma cheap_or {A} (p q : env Sp -> timed A) :
  cheap p -> cheap q -> cheap (fun E => t_or (p E) (q E)).
Proof.
  intros [S1 [K1 [k1 P]]] [S2 [K2 [k2 Q]]]. split; [intros; apply shrinks_or; auto|].
  exists (K1 + K2), (k1 + k2). intros E W M HM ts T. unfold t_or. cbn [t_steps].
  apply poly_add; [apply P; auto|]. specialize (Q E W M HM ts T).
  destruct (r_errs (t_parser (p E) ts)), (r_out (t_parser (p E) ts)); lia.
Qed.

Definition cheap_all {A} (ps : env Sp -> list (timed A)) : Prop :=
  (forall E, Forall (fun p => shrinks (t_parser p)) (ps E)) /\
  exists K k, forall (E : env Sp) W M, at_most t_ml_comment W M ->
    forall ts, suffix ts W -> choice_steps (ps E) ts <= K * poly W k M.

Lemma cheap_nil {A} : cheap_all (fun E => @nil (timed A)).
Proof. split; [constructor|]. exists 0, 0. intros E W M _ ts _. cbn [choice_steps]. lia. Qed.

Lemma cheap_cons {A} (p : env Sp -> timed A) ps :
  cheap p -> cheap_all ps -> cheap_all (fun E => p E :: ps E).
Proof.
  intros [S [K1 [k1 P]]] [F [K2 [k2 Q]]]. split; [constructor; auto|].
  exists (K1 + K2), (k1 + k2). intros E W M HM ts T. cbn [choice_steps].
  apply poly_add; [apply P; auto|]. specialize (Q E W M HM ts T).
  destruct (r_out (t_parser (p E) ts)); lia.
Qed.

Lemma cheap_choice {A} (ps : env Sp -> list (timed A)) :
  cheap_all ps -> cheap (fun E => t_choice (ps E)).
Proof.
  intros [F Q]. split; [|exact Q].
  intros E. apply shrinks_choice. rewrite Forall_map. apply F.
Qed.

Lemma repeat_steps_bound {A} (p : timed A) am b W : shrinks (t_parser p) -> at_most p W b ->
  forall fuel n old ts, suffix ts W -> repeat_steps fuel p am n old ts <= fuel * b.
Proof.
  intros S H. induction fuel as [|fuel IH]; intros n old ts T; cbn [repeat_steps]; [lia|].
  destruct (match am with Some m => m <=? n | None => false end); [lia|].
  specialize (H ts T) as H1.
  destruct (r_out (t_parser p ts)) as [a rest alt|e] eqn:R; [|nia].
  destruct (match old with Some o => o =? List.length rest | None => false end); [nia|].
  specialize (IH (Datatypes.S n) (Some (List.length rest)) rest). apply S in R.
  specialize (IH (suffix_trans _ _ _ R T)). lia.
Qed.

Lemma cheap_repeat {A} al am (p : env Sp -> timed A) :
  cheap p -> cheap (fun E => t_repeat al am (p E)).
Proof.
  intros [S [K [k P]]]. split; [intros; apply shrinks_repeat, S|]. exists K, (1 + k).
  intros E W M HM ts T. unfold t_repeat. cbn [t_steps].
  eapply Nat.le_trans; [apply (repeat_steps_bound (p E) am _ W (S E) (P E W M HM)), T|].
  cbn [Nat.add]. rewrite poly_succ. apply suffix_len in T.
  replace (K * ((len W + 3) * poly W k M)) with ((len W + 3) * (K * poly W k M)) by lia.
  apply Nat.mul_le_mono_r. lia.
Qed.
Lemma cheap_repeated {A} (p : env Sp -> timed A) : cheap p -> cheap (fun E => t_repeated (p E)).
Proof. apply cheap_repeat. Qed.
Lemma cheap_exactly {A} n (p : env Sp -> timed A) :
  cheap p -> cheap (fun E => t_exactly n (p E)).
Proof. apply cheap_repeat. Qed.

Lemma until_bound {A} (p : timed A) b W : at_most p W b ->
  forall ts, suffix ts W -> until_steps p ts <= (len ts + 1) * (b + 1).
Proof.
  intros H. induction ts as [|x ts IH]; intros T; specialize (H _ T) as H1;
    cbn [until_steps]; destruct (r_out (t_parser p _)); cbn [List.length]; try nia.
  specialize (IH (suffix_tail _ _ _ T)). nia.
Qed.

Lemma cheap_take_until {A} (p : env Sp -> timed A) :
  cheap p -> cheap (fun E => t_take_until (p E)).
Proof.
  intros [S [K [k P]]]. split; [intros; apply shrinks_take_until, S|]. exists (K + 1), (1 + k).
  intros E W M HM ts T. unfold t_take_until. cbn [t_steps].
  eapply Nat.le_trans; [apply (until_bound (p E) _ W (P E W M HM)), T|].
  cbn [Nat.add]. rewrite poly_succ. apply suffix_len in T.
  replace ((K + 1) * ((len W + 3) * poly W k M))
    with ((len W + 3) * (K * poly W k M + poly W k M)) by lia.
  pose proof (poly_pos W k M). apply Nat.mul_le_mono; lia.
Qed.

Lemma skip_bound f : forall ts : toks, skip_steps f ts <= len ts + 1.
Proof.
  induction ts as [|[c s] ts IH]; cbn [skip_steps List.length]; [lia|]. destruct (f c); lia.
Qed.

Lemma cheap_recover {A} f (d : A) p :
  cheap p -> cheap (fun E => t_recover_skip_until f d (p E)).
Proof.
  intros [S [K [k P]]]. split; [intros; apply shrinks_recover, S|]. exists (K + 1), (k + 1).
  intros E W M HM ts T. unfold t_recover_skip_until. cbn [t_steps].
  apply poly_add; [apply P; auto|].
  pose proof (skip_bound f ts). apply suffix_len in T. rewrite poly_succ.
  pose proof (poly_pos W 0 M). destruct (r_out (t_parser (p E) ts)); nia.
Qed.

(** ** The parsers of the grammar *)

Lemma cheap_begin_comment c : cheap (fun E => t_begin_comment c).
Proof.
  unfold t_begin_comment.
  apply cheap_ignore_then; [apply (cheap_map_err (fun _ => _)), cheap_just|apply cheap_ignored, cheap_just].
Qed.

Lemma shrinks_ml_rec (E : env Sp) f : shrinks (@ml_comment_rec Sp E f).
Proof.
  induction f as [|f IH]; [intros ts a rest alt; discriminate|].
  apply shrinks_delimited; [| |apply shrinks_just_str].
  - apply shrinks_ignored, shrinks_repeated, shrinks_choice. repeat apply Forall_cons; auto with shrinks.
  - exact (proj1 (cheap_begin_comment 0x2A%N) E).
Qed.

Lemma cheap_ml_comment : cheap (fun E => t_ml_comment).
Proof.
  split.
  - intros E ts a rest alt H.
    exact (shrinks_map_err_with_span _ _ (shrinks_ml_rec E (S (List.length ts))) _ _ _ _ H).
  - exists 1, 0. intros E W M HM ts T. specialize (HM ts T). unfold poly. cbn [Nat.pow]. lia.
Qed.

Hint Resolve cheap_filter cheap_none_of cheap_just cheap_end cheap_filter_map cheap_just_str
  cheap_begin_comment cheap_ml_comment : cheap.

Ltac cheaps :=
  repeat lazymatch goal with
  | |- cheap (fun _ => t_choice _) => apply cheap_choice
  | |- cheap_all (fun _ => []) => apply cheap_nil
  | |- cheap_all (fun _ => _ :: _) => apply cheap_cons
  | |- cheap (fun _ => t_then _ _) => apply cheap_then
  | |- cheap (fun _ => t_ignore_then _ _) => apply cheap_ignore_then
  | |- cheap (fun _ => t_then_ignore _ _) => apply cheap_then_ignore
  | |- cheap (fun _ => t_delimited _ _ _) => apply cheap_delimited
  | |- cheap (fun _ => t_or _ _) => apply cheap_or
  | |- cheap (fun _ => t_map _ _) => apply cheap_map
  | |- cheap (fun _ => t_ignored _) => apply cheap_ignored
  | |- cheap (fun _ => t_spanned _) => apply cheap_spanned
  | |- cheap (fun _ => t_map_err _ _) => apply cheap_map_err
  | |- cheap (fun _ => t_map_err_with_span _ _) => apply cheap_map_err_with_span
  | |- cheap (fun _ => t_try_map _ _) => apply cheap_try_map
  | |- cheap (fun _ => t_validate _ _) => apply cheap_validate
  | |- cheap (fun _ => t_or_not _) => apply cheap_or_not
  | |- cheap (fun _ => t_repeat _ _ _) => apply cheap_repeat
  | |- cheap (fun _ => t_repeated _) => apply cheap_repeated
  | |- cheap (fun _ => t_exactly _ _) => apply cheap_exactly
  | |- cheap (fun _ => t_take_until _) => apply cheap_take_until
  | |- cheap (fun _ => t_recover_skip_until _ _ _) => apply cheap_recover
  | |- cheap _ => solve [auto with cheap]
  end.

Lemma cheap_newline : cheap (fun E => t_newline). Proof. unfold t_newline. cheaps. Qed.
Hint Resolve cheap_newline : cheap.
Lemma cheap_ws : cheap (fun E => t_ws). Proof. unfold t_ws, t_ws_char. cheaps. Qed.
Hint Resolve cheap_ws : cheap.
Lemma cheap_comment : cheap (fun E => t_comment). Proof. unfold t_comment. cheaps. Qed.
Hint Resolve cheap_comment : cheap.

Lemma cheap_raw_string : cheap (fun E => t_raw_string).
Proof.
  unfold t_raw_string. apply (cheap_map (fun _ => _)), cheap_bind.
  - cheaps.
  - intros E n. cbv beta.
    match goal with |- shrinks (t_parser ?q) =>
      let f := eval pattern E in q in
      match f with ?g _ => assert (cheap g) as [C _]; [cheaps|apply C] end end.
  - exists 4, 2. intros E W M _ n ts T.
    change (until_steps (t_ignore_then (t_just 0x22%N) (t_ignored (t_exactly n (t_just 0x23%N)))) ts
            <= 4 * poly W 2 M).
    eapply Nat.le_trans.
    + apply (until_bound _ (len W + 4) W); [|exact T].
      intros u U. unfold t_ignore_then, t_then, t_map, t_bind. cbn [t_steps].
      assert (forall r, suffix r W -> t_steps (t_ignored (t_exactly n (t_just 0x23%N))) r <= len W + 3) as B.
      { intros r R. unfold t_ignored, t_exactly, t_repeat. cbn [t_steps].
        eapply Nat.le_trans; [apply (repeat_steps_bound _ _ 1 W); [apply shrinks_just| |exact R]|].
        - intros ? _. apply le_n.
        - apply suffix_len in R. lia. }
      cbn [t_just t_steps].
      destruct (r_out (t_parser (t_just 0x22%N) u)) as [a r al|e] eqn:R; [|lia].
      apply shrinks_just in R. specialize (B r (suffix_trans _ _ _ R U)). cbn [t_just] in B. lia.
    + apply suffix_len in T. rewrite !poly_succ. pose proof (poly_pos W 0 M). nia.
Qed.
Hint Resolve cheap_raw_string : cheap.

Lemma cheap_esc_char : cheap (fun E => t_esc_char). Proof. unfold t_esc_char. cheaps. Qed.
Hint Resolve cheap_esc_char : cheap.
Lemma cheap_string : cheap (fun E => t_string). Proof. unfold t_string, t_escaped_string. cheaps. Qed.
Hint Resolve cheap_string : cheap.
Lemma cheap_bare_ident : cheap (fun E => t_bare_ident).
Proof.
  unfold t_bare_ident, t_plus_minus, t_id_sans_dig, t_id_char, t_id_sans_sign_dig. cheaps.
Qed.
Hint Resolve cheap_bare_ident : cheap.
Lemma cheap_radix_digits c n r : cheap (fun E => t_radix_digits c n r).
Proof. unfold t_radix_digits, t_digit, t_digits. cheaps. Qed.
Hint Resolve cheap_radix_digits : cheap.
Lemma cheap_opt_sign : cheap (fun E => t_opt_sign). Proof. unfold t_opt_sign. cheaps. Qed.
Hint Resolve cheap_opt_sign : cheap.
Lemma cheap_fraction : cheap (fun E => t_fraction).
Proof. unfold t_fraction, t_digit, t_digits. cheaps. Qed.
Hint Resolve cheap_fraction : cheap.
Lemma cheap_exponent : cheap (fun E => t_exponent).
Proof. unfold t_exponent, t_digits. cheaps. Qed.
Hint Resolve cheap_exponent : cheap.
Lemma cheap_number : cheap (fun E => t_number).
Proof.
  unfold t_number, t_radix_number, t_decimal_number, t_digit, t_digits. cheaps.
Qed.
Hint Resolve cheap_number : cheap.
Lemma cheap_ident : cheap (fun E => t_ident). Proof. unfold t_ident. cheaps. Qed.
Hint Resolve cheap_ident : cheap.
Lemma cheap_literal : cheap (fun E => t_literal).
Proof. unfold t_literal, t_keyword, t_keyword1. cheaps. Qed.
Hint Resolve cheap_literal : cheap.
Lemma cheap_type_name : cheap (fun E => t_type_name). Proof. unfold t_type_name. cheaps. Qed.
Hint Resolve cheap_type_name : cheap.
Lemma cheap_node_space : cheap (fun E => t_node_space).
Proof. unfold t_node_space, t_esc_line. cheaps. Qed.
Hint Resolve cheap_node_space : cheap.
Lemma cheap_node_terminator : cheap (fun E => t_node_terminator).
Proof. unfold t_node_terminator. cheaps. Qed.
Lemma cheap_opt_value : cheap (fun E => t_opt_value).
Proof. unfold t_opt_value, t_value, t_type_name_value. cheaps. Qed.
Hint Resolve cheap_opt_value : cheap.
Lemma cheap_prop_or_arg : cheap (fun E => t_prop_or_arg).
Proof. unfold t_prop_or_arg, t_prop_or_arg_inner, t_type_name_value. cheaps. Qed.
Hint Resolve cheap_prop_or_arg : cheap.
Lemma cheap_line_space : cheap (fun E => t_line_space). Proof. unfold t_line_space. cheaps. Qed.
Hint Resolve cheap_line_space : cheap.
Lemma cheap_slashdash : cheap (fun E => t_slashdash). Proof. unfold t_slashdash. cheaps. Qed.
Lemma cheap_node_items : cheap (fun E => t_node_items). Proof. unfold t_node_items. cheaps. Qed.
Lemma cheap_line_spaces : cheap (fun E => t_repeated t_line_space). Proof. cheaps. Qed.
Lemma cheap_node_spaces : cheap (fun E => t_repeated t_node_space). Proof. cheaps. Qed.
Lemma cheap_opt_type : cheap (fun E => t_or_not (t_spanned t_type_name)). Proof. cheaps. Qed.
Lemma cheap_spanned_ident : cheap (fun E => t_spanned t_ident). Proof. cheaps. Qed.

End Cheap.
