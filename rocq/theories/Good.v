(** What it means that a parser succeeded without any error, for each
    combinator; and when it does succeed or fail.

    [good r a rest]: clean success.  [failed r]: a hard error.  [succ r a rest]:
    clean success, the crash log aside. *)

From Coq Require Import NArith PeanoNat List Bool String Lia.
From Verif Require Import Chars Ast Errors Chumsky Spans Grammar Kdl.
Import ListNotations.
Local Open Scope list_scope.

Section Good.
Context {Sp : Type} {E : env Sp}.

Notation parser := (parser Sp).
Notation toks := (toks Sp).
Notation located := (located Sp).

Definition succ {A} (r : presult Sp A) (a : A) (rest : toks) : Prop :=
  r_errs r = [] /\ exists alt, r_out r = Ok a rest alt.

Definition good {A} (r : presult Sp A) (a : A) (rest : toks) : Prop :=
  succ r a rest /\ r_crash r = [].

Definition failed {A} (r : presult Sp A) : Prop := exists e, r_out r = Err e.

Lemma succ_failed {A} (r : presult Sp A) a rest : succ r a rest -> failed r -> False.
Proof. intros [_ [alt H]] [e H2]. congruence. Qed.

Lemma good_failed {A} (r : presult Sp A) a rest : good r a rest -> failed r -> False.
Proof. intros [H _]. eapply succ_failed; eauto. Qed.

Lemma succ_fun {A} (r : presult Sp A) a rest a' rest' :
  succ r a rest -> succ r a' rest' -> a = a' /\ rest = rest'.
Proof. intros [_ [alt H]] [_ [alt' H']]. rewrite H in H'. inversion H'; auto. Qed.

Lemma out_dec {A} (r : presult Sp A) :
  failed r \/ exists a rest alt, r_out r = Ok a rest alt.
Proof. destruct (r_out r) eqn:X; [right|left; eexists]; eauto. Qed.

Lemma app_nil2 {A} (a b : list A) : a ++ b = [] -> a = [] /\ b = [].
Proof. apply app_eq_nil. Qed.

Ltac apps :=
  repeat match goal with
  | H : _ ++ _ = [] |- _ => apply app_nil2 in H; destruct H
  end.

(** ** Inversion *)

Lemma good_filter f ts a rest : good (p_filter f ts) a rest ->
  exists sp, ts = (a, sp) :: rest /\ f a = true.
Proof.
  intros [[_ [alt H]] _]. destruct ts as [|[c sp] ts]; simpl in H; [discriminate|].
  destruct (f c) eqn:F; inversion H; subst. eauto.
Qed.

Lemma good_just x ts a rest : good (p_just x ts) a rest ->
  exists sp, ts = (a, sp) :: rest /\ a = x.
Proof.
  intros [[_ [alt H]] _]. destruct ts as [|[c sp] ts]; simpl in H; [discriminate|].
  destruct (N.eqb_spec c x); inversion H; subst. eauto.
Qed.

Lemma good_just_str s : forall ts a rest, good (p_just_str s ts) a rest ->
  exists u, ts = u ++ rest /\ chars u = s.
Proof.
  induction s as [|x s IH]; intros ts a rest G.
  - destruct G as [[_ [alt H]] _]. simpl in H. inversion H. exists []. auto.
  - destruct ts as [|[c sp] ts]; simpl in G.
    + destruct G as [[_ [alt H]] _]. discriminate.
    + destruct (N.eqb_spec c x).
      * apply IH in G. destruct G as [u [X Y]]. exists ((c, sp) :: u).
        subst. auto.
      * destruct G as [[_ [alt H]] _]. discriminate.
Qed.

Lemma good_end ts a rest : good (p_end ts) a rest -> ts = [] /\ rest = [].
Proof.
  intros [[_ [alt H]] _]. destruct ts; simpl in H; inversion H. auto.
Qed.

Lemma good_filter_map {A} (f : Sp -> char -> A + perror Sp) ts a rest :
  good (p_filter_map f ts) a rest ->
  exists c sp, ts = (c, sp) :: rest /\ f sp c = inl a.
Proof.
  intros [[_ [alt H]] _]. destruct ts as [|[c sp] ts]; simpl in H; [discriminate|].
  destruct (f sp c) eqn:F; inversion H; subst. eauto.
Qed.

Lemma good_map {A B} (f : A -> B) p ts b rest : good (p_map f p ts) b rest ->
  exists a, good (p ts) a rest /\ b = f a.
Proof.
  intros [[H0 [alt H]] C]. unfold p_map in *. cbn [r_errs r_out r_crash] in *.
  destruct (r_out (p ts)) eqn:O; inversion H; subst.
  exists a. repeat split; eauto.
Qed.

Lemma good_ignored {A} (p : parser A) ts b rest : good (p_ignored p ts) b rest ->
  exists a, good (p ts) a rest.
Proof. intros H. apply good_map in H. destruct H as [a [H _]]. eauto. Qed.

Lemma good_map_with_span {A B} (f : A -> Sp -> B) p ts b rest :
  good (p_map_with_span f p ts) b rest ->
  exists a, good (p ts) a rest /\ b = f a (span_since ts (List.length rest)).
Proof.
  intros [[H0 [alt H]] C]. unfold p_map_with_span in *.
  cbn [r_errs r_out r_crash] in *.
  destruct (r_out (p ts)) eqn:O; inversion H; subst.
  exists a. repeat split; eauto.
Qed.

Lemma good_map_err {A} f (p : parser A) ts a rest :
  good (p_map_err f p ts) a rest -> good (p ts) a rest.
Proof.
  intros [[H0 [alt H]] C]. unfold p_map_err in *. cbn [r_errs r_out r_crash] in *.
  destruct (r_out (p ts)) eqn:O; inversion H; subst. repeat split; eauto.
Qed.

Lemma good_map_err_with_span {A} f (p : parser A) ts a rest :
  good (p_map_err_with_span f p ts) a rest -> good (p ts) a rest.
Proof.
  intros [[H0 [alt H]] C]. unfold p_map_err_with_span in *.
  destruct (r_out (p ts)) eqn:O.
  - repeat split; eauto.
  - destruct (f (l_err e) (span_since ts (l_rem e))); discriminate.
Qed.

Lemma good_try_map {A B} (f : A -> Sp -> B + perror Sp) p ts b rest :
  good (p_try_map f p ts) b rest ->
  exists a, good (p ts) a rest
            /\ f a (span_since ts (List.length rest)) = inl b.
Proof.
  intros [[H0 [alt H]] C]. unfold p_try_map in *. cbn [r_errs r_out r_crash] in *.
  destruct (r_out (p ts)) eqn:O; [|discriminate].
  destruct (f a (span_since ts (List.length rest0))) eqn:F; inversion H; subst.
  exists a. repeat split; eauto.
Qed.

Lemma good_validate {A B} (f : A -> Sp -> B * option (perror Sp)) p ts b rest :
  good (p_validate f p ts) b rest ->
  exists a, good (p ts) a rest
            /\ f a (span_since ts (List.length rest)) = (b, None).
Proof.
  intros [[H0 [alt H]] C]. unfold p_validate in *.
  destruct (r_out (p ts)) eqn:O; [|discriminate].
  destruct (f a (span_since ts (List.length rest0))) as [b' [e|]] eqn:F;
    cbn [r_errs r_out r_crash] in *; apps; [discriminate|].
  inversion H; subst. exists a. repeat split; eauto.
Qed.

Lemma good_bind {A B} (p : parser A) (q : A -> parser B) ts x rest :
  good (p_bind p q ts) x rest ->
  exists a b r1, good (p ts) a r1 /\ good (q a r1) b rest /\ x = (a, b).
Proof.
  intros [[H0 [alt H]] C]. unfold p_bind in *.
  destruct (r_out (p ts)) as [a r1 alt1|e] eqn:P; [|discriminate].
  destruct (r_out (q a r1)) as [b r2 alt2|e] eqn:Q.
  - destruct (merge_alts alt1 alt2) as [m c]. cbn [r_errs r_out r_crash] in *.
    apps. inversion H; subst. exists a, b, r1. repeat split; eauto.
  - destruct (lmax_opt e alt1). discriminate.
Qed.

Lemma good_then {A B} (p : parser A) (q : parser B) ts x rest :
  good (p_then p q ts) x rest ->
  exists a b r1, good (p ts) a r1 /\ good (q r1) b rest /\ x = (a, b).
Proof. apply good_bind. Qed.

Lemma good_ignore_then {A B} (p : parser A) (q : parser B) ts b rest :
  good (p_ignore_then p q ts) b rest ->
  exists a r1, good (p ts) a r1 /\ good (q r1) b rest.
Proof.
  intros H. apply good_map in H. destruct H as [x [H ->]].
  apply good_then in H. destruct H as [a [b [r1 [H1 [H2 ->]]]]]. eauto.
Qed.

Lemma good_then_ignore {A B} (p : parser A) (q : parser B) ts a rest :
  good (p_then_ignore p q ts) a rest ->
  exists b r1, good (p ts) a r1 /\ good (q r1) b rest.
Proof.
  intros H. apply good_map in H. destruct H as [x [H ->]].
  apply good_then in H. destruct H as [a [b [r1 [H1 [H2 ->]]]]]. eauto.
Qed.

Lemma good_delimited {A B C} (p : parser A) (o : parser B) (c : parser C) ts a rest :
  good (p_delimited p o c ts) a rest ->
  exists x y r1 r2, good (o ts) x r1 /\ good (p r1) a r2 /\ good (c r2) y rest.
Proof.
  intros H. apply good_then_ignore in H. destruct H as [y [r2 [H H3]]].
  apply good_ignore_then in H. destruct H as [x [r1 [H1 H2]]]. eauto 8.
Qed.

Lemma with_alt_good {A} (r o : presult Sp A) cr a rest :
  good (add_crash cr (with_alt r o)) a rest -> good r a rest.
Proof.
  intros [[H0 [alt H]] C]. unfold add_crash, with_alt in *.
  cbn [r_errs r_out r_crash] in *. apps.
  destruct (r_out r) eqn:O.
  - destruct (merge_alts alt0 (branch_alt (r_out o))).
    cbn [r_errs r_out r_crash] in *. apps. inversion H; subst.
    repeat split; eauto.
  - congruence.
Qed.

Lemma with_alt_crash {A} (r o : presult Sp A) cr a rest :
  good (add_crash cr (with_alt r o)) a rest -> cr = [].
Proof.
  intros [[H0 [alt H]] C]. unfold add_crash in C. cbn [r_crash] in C. apps. auto.
Qed.

Lemma good_or {A} (p q : parser A) ts a rest : good (p_or p q ts) a rest ->
  good (p ts) a rest \/
  (good (q ts) a rest /\ (failed (p ts) \/ r_errs (p ts) <> [])).
Proof.
  intros G. unfold p_or in G.
  destruct (r_errs (p ts)) as [|e0 es] eqn:EA.
  - destruct (r_out (p ts)) as [a1 r1 alt1|e1] eqn:OA; [left; exact G|].
    assert (failed (p ts)) as F by (eexists; eauto).
    right. split; [|left; exact F].
    destruct (r_out (q ts)) as [b r2 alt2|e2] eqn:OB.
    + eapply with_alt_good; eauto.
    + exfalso. destruct G as [[_ [alt X]] _].
      destruct (cmp_at e1 e2); [|unfold add_crash in X; cbn [r_out] in X; congruence
        |unfold add_crash in X; cbn [r_out] in X; congruence].
      destruct (Nat.compare _ _); [|unfold add_crash in X; cbn [r_out] in X; congruence
        |unfold add_crash in X; cbn [r_out] in X; congruence].
      destruct (cmp_last _ _); [|unfold add_crash in X; cbn [r_out] in X; congruence
        |unfold add_crash in X; cbn [r_out] in X; congruence].
      destruct (lmax e1 e2). discriminate.
  - assert (good (q ts) a rest \/ False) as [K|[]];
      [|right; split; [exact K|right; discriminate]].
    destruct (r_out (p ts)) as [a1 r1 alt1|e1] eqn:OA;
    destruct (r_out (q ts)) as [b r2 alt2|e2] eqn:OB.
    + assert (forall cr o, good (add_crash cr (with_alt (p ts) o)) a rest -> False) as N.
      { intros cr o X. apply with_alt_good in X. destruct X as [[X _] _]. congruence. }
      destruct (Nat.compare _ _);
        [|right; eapply N; eauto|left; eapply with_alt_good; eauto].
      destruct (cmp_last _ _);
        [|left; eapply with_alt_good; eauto|right; eapply N; eauto].
      destruct (cmp_alt _ _); try (right; eapply N; eauto; fail).
      left; eapply with_alt_good; eauto.
    + exfalso. apply with_alt_good in G. destruct G as [[X _] _]. congruence.
    + left. eapply with_alt_good; eauto.
    + exfalso. destruct G as [[_ [alt X]] _].
      destruct (cmp_at e1 e2); [|unfold add_crash in X; cbn [r_out] in X; congruence
        |unfold add_crash in X; cbn [r_out] in X; congruence].
      destruct (Nat.compare _ _); [|unfold add_crash in X; cbn [r_out] in X; congruence
        |unfold add_crash in X; cbn [r_out] in X; congruence].
      destruct (cmp_last _ _); [|unfold add_crash in X; cbn [r_out] in X; congruence
        |unfold add_crash in X; cbn [r_out] in X; congruence].
      destruct (lmax e1 e2). discriminate.
Qed.

Lemma good_choice_from {A} (p : parser A) ps alt ts a rest :
  good (p_choice_from alt (p :: ps) ts) a rest ->
  good (p ts) a rest \/
  (failed (p ts) /\ exists alt', good (p_choice_from alt' ps ts) a rest).
Proof.
  intros G. cbn [p_choice_from] in G.
  destruct (r_out (p ts)) as [a1 r1 alt1|e1] eqn:OA; [left; exact G|].
  right. split; [eexists; eauto|].
  destruct (merge_alts alt (Some e1)) as [alt' c].
  destruct G as [[H0 [al H]] C]. unfold add_crash in *. cbn [r_errs r_out r_crash] in *.
  apps. exists alt'. repeat split; eauto.
Qed.

Lemma good_choice_nil {A} alt ts (a : A) rest :
  good (p_choice_from alt [] ts) a rest -> False.
Proof.
  intros [[_ [al H]] _]. cbn [p_choice_from] in H. destruct alt; discriminate.
Qed.

Lemma good_choice3 {A} (p q r : parser A) ts a rest :
  good (p_choice [p; q; r] ts) a rest ->
  good (p ts) a rest \/ (failed (p ts) /\ good (q ts) a rest)
  \/ (failed (p ts) /\ failed (q ts) /\ good (r ts) a rest).
Proof.
  intros G. apply good_choice_from in G. destruct G as [G|[F1 [? G]]]; [auto|].
  apply good_choice_from in G. destruct G as [G|[F2 [? G]]]; [auto|].
  apply good_choice_from in G. destruct G as [G|[F3 [? G]]]; [auto|].
  apply good_choice_nil in G. destruct G.
Qed.

Lemma good_choice4 {A} (p q r s : parser A) ts a rest :
  good (p_choice [p; q; r; s] ts) a rest ->
  good (p ts) a rest \/ good (q ts) a rest \/ good (r ts) a rest
  \/ good (s ts) a rest.
Proof.
  intros G. apply good_choice_from in G. destruct G as [G|[F1 [? G]]]; [auto|].
  apply good_choice_from in G. destruct G as [G|[F2 [? G]]]; [auto|].
  apply good_choice_from in G. destruct G as [G|[F3 [? G]]]; [auto|].
  apply good_choice_from in G. destruct G as [G|[F4 [? G]]]; [auto|].
  apply good_choice_nil in G. destruct G.
Qed.

Lemma good_or_not {A} (p : parser A) ts o rest : good (p_or_not p ts) o rest ->
  (exists a, o = Some a /\ good (p ts) a rest)
  \/ (o = None /\ rest = ts /\ failed (p ts)).
Proof.
  intros [[H0 [alt H]] C]. unfold p_or_not in *.
  destruct (r_out (p ts)) eqn:O; cbn [r_errs r_out r_crash] in *; inversion H; subst.
  - left. exists a. repeat split; eauto.
  - right. repeat split. eexists; eauto.
Qed.

Lemma good_rewind {A} (p : parser A) ts a rest : good (p_rewind p ts) a rest ->
  rest = ts /\ exists r, good (p ts) a r.
Proof.
  intros [[H0 [alt H]] C]. unfold p_rewind in *. cbn [r_errs r_out r_crash] in *.
  destruct (r_out (p ts)) eqn:O; inversion H; subst.
  split; [reflexivity|]. exists rest0. repeat split; eauto.
Qed.

Lemma good_recover {A} f (d : A) p ts a rest :
  good (p_recover_skip_until f d p ts) a rest -> good (p ts) a rest.
Proof.
  intros G. unfold p_recover_skip_until in G.
  destruct (r_out (p ts)) eqn:O; [exact G|].
  destruct (skip_to f ts).
  - destruct G as [[H0 _] _]. cbn [r_errs] in H0. apps. discriminate.
  - exact G.
Qed.

(** The results of repeating a parser. *)
Inductive chain {A} (p : parser A) : toks -> list A -> toks -> Prop :=
| Chain_nil ts : chain p ts [] ts
| Chain_cons ts a r1 l rest : good (p ts) a r1 -> chain p r1 l rest ->
    chain p ts (a :: l) rest.

Lemma good_repeat_loop {A} (p : parser A) al am :
  forall fuel errs outs alt old cr ts l rest,
  good (repeat_loop fuel p al am errs outs alt old cr ts) l rest ->
  errs = [] /\ cr = [] /\
  exists l2, l = rev outs ++ l2 /\ chain p ts l2 rest
    /\ (al <= List.length outs + List.length l2 \/ am <> None)
    /\ (failed (p rest) \/
        exists m, am = Some m /\ m <= List.length outs + List.length l2).
Proof.
  induction fuel as [|fuel IH]; intros errs outs alt old cr ts l rest G.
  - destruct G as [_ C]. cbn [repeat_loop r_crash] in C. apps. discriminate.
  - cbn [repeat_loop] in G.
    destruct (match am with Some m => m <=? List.length outs | None => false end) eqn:St.
    + destruct G as [[H0 [al' H]] C]. cbn [r_errs r_out r_crash] in *.
      inversion H; subst. repeat split. exists [].
      rewrite app_nil_r. destruct am as [m|]; [|discriminate].
      apply Nat.leb_le in St. simpl.
      repeat split; [constructor|right; discriminate|right; exists m; split; [auto|lia]].
    + destruct (r_out (p ts)) as [a r1 alt1|e1] eqn:OA.
      * destruct (merge_alts alt alt1) as [alt' c].
        destruct (match old with Some o => o =? List.length r1 | None => false end).
        { destruct G as [_ C]. cbn [r_crash] in C. apps. discriminate. }
        apply IH in G. destruct G as [G1 [G2 [l2 [X [Ch [Y Z]]]]]]. apps.
        repeat split; auto. exists (a :: l2). subst l. simpl rev in *.
        rewrite <- app_assoc. split; [reflexivity|].
        split; [econstructor; [|exact Ch]; repeat split; eauto|].
        simpl in *. split.
        { destruct Y; [left; lia|right; auto]. }
        { destruct Z as [Z|[m [Z1 Z2]]]; [left; auto|right; exists m; split; [auto|lia]]. }
      * destruct (List.length outs <? al) eqn:Lt.
        { destruct G as [[_ [? X]] _]. discriminate. }
        destruct (merge_alts alt (Some e1)) as [alt' c].
        destruct G as [[H0 [al' H]] C]. cbn [r_errs r_out r_crash] in *. apps.
        inversion H; subst. repeat split; auto. exists []. rewrite app_nil_r.
        apply Nat.ltb_ge in Lt. simpl.
        repeat split; [constructor|left; lia|left; eexists; eauto].
Qed.

Lemma good_repeated {A} (p : parser A) ts l rest :
  good (p_repeated p ts) l rest -> chain p ts l rest /\ failed (p rest).
Proof.
  intros G. apply good_repeat_loop in G.
  destruct G as [_ [_ [l2 [-> [Ch [_ [F|[m [X _]]]]]]]]]; [auto|discriminate].
Qed.

Lemma good_repeat1 {A} (p : parser A) ts l rest :
  good (p_repeat 1 None p ts) l rest ->
  chain p ts l rest /\ failed (p rest) /\ l <> [].
Proof.
  intros G. apply good_repeat_loop in G.
  destruct G as [_ [_ [l2 [-> [Ch [Y [F|[m [X _]]]]]]]]]; [|discriminate].
  repeat split; auto. destruct Y as [Y|Y]; [|congruence].
  intros Z. simpl in *. subst. simpl in Y. lia.
Qed.

Lemma good_exactly {A} (p : parser A) n ts l rest :
  good (p_exactly n p ts) l rest -> chain p ts l rest /\ List.length l = n.
Proof.
  intros G.
  assert (forall fuel errs outs alt old cr ts l rest,
    good (repeat_loop fuel p n (Some n) errs outs alt old cr ts) l rest ->
    List.length outs <= n -> List.length l = n) as K.
  { clear. induction fuel as [|fuel IH]; intros errs outs alt old cr ts l rest G L.
    - destruct G as [_ C]. cbn [repeat_loop r_crash] in C. apps. discriminate.
    - cbn [repeat_loop] in G. destruct (n <=? List.length outs) eqn:St.
      + apply Nat.leb_le in St. destruct G as [[H0 [al' H]] C].
        cbn [r_out] in H. inversion H; subst. rewrite rev_length. lia.
      + apply Nat.leb_gt in St. destruct (r_out (p ts)) as [a r1 alt1|e1] eqn:OA.
        * destruct (merge_alts alt alt1) as [alt' c].
          destruct (match old with Some o => o =? List.length r1 | None => false end).
          { destruct G as [_ C]. cbn [r_crash] in C. apps. discriminate. }
          apply IH in G; [auto|]. simpl. lia.
        * destruct (List.length outs <? n) eqn:Lt.
          { destruct G as [[_ [? X]] _]. discriminate. }
          apply Nat.ltb_ge in Lt. lia. }
  pose proof G as G2. apply K in G; [|simpl; lia].
  apply good_repeat_loop in G2. destruct G2 as [_ [_ [l2 [X [Ch _]]]]].
  simpl in X. subst l2. auto.
Qed.

Lemma good_repeat_1_6 {A} (p : parser A) ts l rest :
  good (p_repeat 1 (Some 6) p ts) l rest ->
  chain p ts l rest /\ 1 <= List.length l <= 6
  /\ (failed (p rest) \/ List.length l = 6).
Proof.
  intros G.
  assert (forall fuel errs outs alt old cr ts l rest,
    good (repeat_loop fuel p 1 (Some 6) errs outs alt old cr ts) l rest ->
    List.length outs <= 6 -> 1 <= List.length l <= 6) as K.
  { clear. induction fuel as [|fuel IH]; intros errs outs alt old cr ts l rest G L.
    - destruct G as [_ C]. cbn [repeat_loop r_crash] in C. apps. discriminate.
    - cbn [repeat_loop] in G. destruct (6 <=? List.length outs) eqn:St.
      + apply Nat.leb_le in St. destruct G as [[H0 [al' H]] C].
        cbn [r_out] in H. inversion H; subst. rewrite rev_length. lia.
      + apply Nat.leb_gt in St. destruct (r_out (p ts)) as [a r1 alt1|e1] eqn:OA.
        * destruct (merge_alts alt alt1) as [alt' c].
          destruct (match old with Some o => o =? List.length r1 | None => false end).
          { destruct G as [_ C]. cbn [r_crash] in C. apps. discriminate. }
          apply IH in G; [auto|]. simpl. lia.
        * destruct (List.length outs <? 1) eqn:Lt.
          { destruct G as [[_ [? X]] _]. discriminate. }
          apply Nat.ltb_ge in Lt.
          destruct (merge_alts alt (Some e1)) as [alt' c].
          destruct G as [[H0 [al' H]] C]. cbn [r_out] in H.
          inversion H; subst. rewrite rev_length. lia. }
  pose proof G as G2. apply K in G; [|simpl; lia].
  apply good_repeat_loop in G2. destruct G2 as [_ [_ [l2 [X [Ch [_ Z]]]]]].
  simpl in X. subst l2. split; [auto|]. split; [auto|].
  destruct Z as [Z|[m [Z1 Z2]]]; [auto|]. inversion Z1; subst. simpl in Z2.
  right. lia.
Qed.

Lemma good_until_loop {A} (p : parser A) : forall ts alt outs cr cs a rest,
  good (until_loop p alt outs cr ts) (cs, a) rest ->
  exists s mid, ts = s ++ mid /\ cs = rev outs ++ chars s /\ good (p mid) a rest
    /\ cr = []
    /\ forall u v, s = u ++ v -> v <> [] -> failed (p (v ++ mid)).
Proof.
  induction ts as [|[c sp] ts IH]; intros alt outs cr cs a rest G;
    cbn [until_loop] in G.
  - destruct (r_out (p [])) as [a1 r1 alt1|e1] eqn:OA.
    + destruct (merge_alts alt alt1) as [alt' c].
      destruct G as [[H0 [al' H]] C]. cbn [r_errs r_out r_crash] in *. apps.
      inversion H; subst. exists [], []. simpl. rewrite app_nil_r.
      split; [reflexivity|]. split; [reflexivity|].
      split; [repeat split; eauto|]. split; [reflexivity|].
      intros u v X Y. symmetry in X. apply app_nil2 in X. destruct X; congruence.
    + destruct G as [[_ [? X]] _]. discriminate.
  - match type of G with context [r_out ?x] =>
      destruct (r_out x) as [a1 r1 alt1|e1] eqn:OA end.
    + destruct (merge_alts alt alt1) as [alt' c'].
      destruct G as [[H0 [al' H]] C]. cbn [r_errs r_out r_crash] in *. apps.
      inversion H; subst. exists [], ((c, sp) :: ts). simpl. rewrite app_nil_r.
      split; [reflexivity|]. split; [reflexivity|].
      split; [repeat split; eauto|]. split; [reflexivity|].
      intros u v X Y. symmetry in X. apply app_nil2 in X. destruct X; congruence.
    + destruct (merge_alts alt (Some e1)) as [alt' cm].
      apply IH in G. destruct G as [s [mid [-> [-> [G [C F]]]]]]. apps.
      exists ((c, sp) :: s), mid. simpl. rewrite <- app_assoc. simpl.
      split; [reflexivity|]. split; [reflexivity|]. split; [exact G|].
      split; [assumption|].
      intros u v X Y. destruct u as [|t u].
      * simpl in X. subst v. eexists. exact OA.
      * inversion X; subst. eapply F; eauto.
Qed.

Lemma good_take_until {A} (p : parser A) ts cs a rest :
  good (p_take_until p ts) (cs, a) rest ->
  exists s mid, ts = s ++ mid /\ cs = chars s /\ good (p mid) a rest
    /\ forall u v, s = u ++ v -> v <> [] -> failed (p (v ++ mid)).
Proof.
  intros G. apply good_until_loop in G.
  destruct G as [s [mid [X [Y [Z [_ W]]]]]]. exists s, mid. auto.
Qed.

(** ** Introduction *)

Lemma succ_filter f c sp rest : f c = true ->
  succ (p_filter f ((c, sp) :: rest)) c rest.
Proof. intros H. unfold p_filter. rewrite H. split; [reflexivity|]. eexists; reflexivity. Qed.

Lemma succ_just x sp rest : succ (p_just x ((x, sp) :: rest)) x rest.
Proof. unfold p_just. rewrite N.eqb_refl. split; [reflexivity|]. eexists; reflexivity. Qed.

Lemma succ_just_str s : forall u rest, chars u = s ->
  succ (p_just_str s (u ++ rest)) tt rest.
Proof.
  induction s as [|x s IH]; intros u rest H; destruct u as [|[c sp] u]; try discriminate.
  - split; [reflexivity|]. eexists; reflexivity.
  - simpl in H. inversion H; subst. simpl. rewrite N.eqb_refl. apply IH. reflexivity.
Qed.

Lemma succ_end : succ (p_end (@nil (tok Sp))) tt [].
Proof. split; [reflexivity|]. eexists; reflexivity. Qed.

Lemma succ_filter_map {A} (f : Sp -> char -> A + perror Sp) c sp rest a :
  f sp c = inl a -> succ (p_filter_map f ((c, sp) :: rest)) a rest.
Proof. intros H. unfold p_filter_map. rewrite H. split; [reflexivity|]. eexists; reflexivity. Qed.

Lemma succ_map {A B} (f : A -> B) p ts a rest : succ (p ts) a rest ->
  succ (p_map f p ts) (f a) rest.
Proof.
  intros [H0 [alt H]]. unfold p_map. split; cbn [r_errs r_out]; [auto|].
  rewrite H. eexists; reflexivity.
Qed.

Lemma succ_ignored {A} (p : parser A) ts a rest : succ (p ts) a rest ->
  succ (p_ignored p ts) tt rest.
Proof. intros H. apply (succ_map (fun _ => tt)) in H. exact H. Qed.

Lemma succ_map_with_span {A B} (f : A -> Sp -> B) p ts a rest :
  succ (p ts) a rest ->
  succ (p_map_with_span f p ts) (f a (span_since ts (List.length rest))) rest.
Proof.
  intros [H0 [alt H]]. unfold p_map_with_span. split; cbn [r_errs r_out]; [auto|].
  rewrite H. eexists; reflexivity.
Qed.

Lemma succ_map_err {A} f (p : parser A) ts a rest : succ (p ts) a rest ->
  succ (p_map_err f p ts) a rest.
Proof.
  intros [H0 [alt H]]. unfold p_map_err. split; cbn [r_errs r_out]; [auto|].
  rewrite H. eexists; reflexivity.
Qed.

Lemma succ_map_err_with_span {A} f (p : parser A) ts a rest : succ (p ts) a rest ->
  succ (p_map_err_with_span f p ts) a rest.
Proof.
  intros H. unfold p_map_err_with_span. destruct H as [H0 [alt H]]. rewrite H.
  split; eauto.
Qed.

Lemma succ_try_map {A B} (f : A -> Sp -> B + perror Sp) p ts a b rest :
  succ (p ts) a rest -> f a (span_since ts (List.length rest)) = inl b ->
  succ (p_try_map f p ts) b rest.
Proof.
  intros [H0 [alt H]] F. unfold p_try_map. split; cbn [r_errs r_out]; [auto|].
  rewrite H, F. eexists; reflexivity.
Qed.

Lemma succ_validate {A B} (f : A -> Sp -> B * option (perror Sp)) p ts a b rest :
  succ (p ts) a rest -> f a (span_since ts (List.length rest)) = (b, None) ->
  succ (p_validate f p ts) b rest.
Proof.
  intros [H0 [alt H]] F. unfold p_validate. rewrite H, F.
  split; cbn [r_errs r_out]; [rewrite H0; reflexivity|]. eexists; reflexivity.
Qed.

Lemma succ_bind {A B} (p : parser A) (q : A -> parser B) ts a r1 b rest :
  succ (p ts) a r1 -> succ (q a r1) b rest -> succ (p_bind p q ts) (a, b) rest.
Proof.
  intros [H0 [alt H]] [K0 [alt2 K]]. unfold p_bind. rewrite H, K.
  destruct (merge_alts alt alt2). split; cbn [r_errs r_out].
  - rewrite H0, K0. reflexivity.
  - eexists; reflexivity.
Qed.

Lemma succ_then {A B} (p : parser A) (q : parser B) ts a r1 b rest :
  succ (p ts) a r1 -> succ (q r1) b rest -> succ (p_then p q ts) (a, b) rest.
Proof. intros. eapply succ_bind; eauto. Qed.

Lemma succ_ignore_then {A B} (p : parser A) (q : parser B) ts a r1 b rest :
  succ (p ts) a r1 -> succ (q r1) b rest -> succ (p_ignore_then p q ts) b rest.
Proof. intros H K. apply (succ_map snd (p_then p q) ts (a, b)). eapply succ_then; eauto. Qed.

Lemma succ_then_ignore {A B} (p : parser A) (q : parser B) ts a r1 b rest :
  succ (p ts) a r1 -> succ (q r1) b rest -> succ (p_then_ignore p q ts) a rest.
Proof. intros H K. apply (succ_map fst (p_then p q) ts (a, b)). eapply succ_then; eauto. Qed.

Lemma succ_delimited {A B C} (p : parser A) (o : parser B) (c : parser C) ts x r1 a r2 y rest :
  succ (o ts) x r1 -> succ (p r1) a r2 -> succ (c r2) y rest ->
  succ (p_delimited p o c ts) a rest.
Proof.
  intros. eapply succ_then_ignore; [|eauto]. eapply succ_ignore_then; eauto.
Qed.

Lemma succ_or_l {A} (p q : parser A) ts a rest :
  succ (p ts) a rest -> succ (p_or p q ts) a rest.
Proof.
  intros H. unfold p_or. pose proof H as [H0 [alt H1]]. rewrite H0, H1. exact H.
Qed.

Lemma with_alt_succ {A} (r o : presult Sp A) cr a rest :
  succ r a rest -> succ (add_crash cr (with_alt r o)) a rest.
Proof.
  intros [H0 [alt H]]. unfold add_crash, with_alt. rewrite H.
  destruct (merge_alts alt (branch_alt (r_out o))). split; cbn [r_errs r_out]; [auto|].
  eexists; reflexivity.
Qed.

Lemma succ_or_r {A} (p q : parser A) ts a rest :
  failed (p ts) -> succ (q ts) a rest -> succ (p_or p q ts) a rest.
Proof.
  intros [e F] H. unfold p_or. rewrite F. pose proof H as [H0 [alt H1]]. rewrite H1.
  destruct (r_errs (p ts)); apply with_alt_succ; exact H.
Qed.

Lemma failed_or {A} (p q : parser A) ts :
  failed (p ts) -> failed (q ts) -> failed (p_or p q ts).
Proof.
  intros [e F] [e2 F2]. unfold p_or. rewrite F, F2.
  assert (forall X : presult Sp A, failed X -> failed X) as _ by auto.
  destruct (r_errs (p ts)); destruct (cmp_at e e2);
    try (destruct (Nat.compare _ _)); try (destruct (cmp_last _ _));
    try (destruct (lmax e e2)); unfold failed, add_crash; cbn [r_out]; eauto.
Qed.

Lemma succ_choice_hit {A} (p : parser A) ps alt ts a rest :
  succ (p ts) a rest -> succ (p_choice_from alt (p :: ps) ts) a rest.
Proof.
  intros H. cbn [p_choice_from]. pose proof H as [H0 [al H1]]. rewrite H1. exact H.
Qed.

Lemma succ_choice_miss {A} (p : parser A) ps alt ts a rest :
  failed (p ts) -> (forall alt', succ (p_choice_from alt' ps ts) a rest) ->
  succ (p_choice_from alt (p :: ps) ts) a rest.
Proof.
  intros [e F] H. cbn [p_choice_from]. rewrite F.
  destruct (merge_alts alt (Some e)) as [alt' c]. destruct (H alt') as [H0 [al H1]].
  unfold add_crash. split; cbn [r_errs r_out]; eauto.
Qed.

Lemma failed_choice_nil {A} alt ts : failed (@p_choice_from Sp E A alt [] ts).
Proof. cbn [p_choice_from]. destruct alt; eexists; reflexivity. Qed.

Lemma failed_choice {A} (p : parser A) ps alt ts :
  failed (p ts) -> (forall alt', failed (p_choice_from alt' ps ts)) ->
  failed (p_choice_from alt (p :: ps) ts).
Proof.
  intros [e F] H. cbn [p_choice_from]. rewrite F.
  destruct (merge_alts alt (Some e)) as [alt' c]. destruct (H alt') as [e' K].
  exists e'. exact K.
Qed.

Lemma succ_or_not_some {A} (p : parser A) ts a rest : succ (p ts) a rest ->
  succ (p_or_not p ts) (Some a) rest.
Proof.
  intros [H0 [alt H]]. unfold p_or_not. rewrite H. split; cbn [r_errs r_out]; eauto.
Qed.

Lemma succ_or_not_none {A} (p : parser A) ts : failed (p ts) ->
  succ (p_or_not p ts) None ts.
Proof.
  intros [e F]. unfold p_or_not. rewrite F. split; cbn [r_errs r_out]; eauto.
Qed.

Lemma succ_rewind {A} (p : parser A) ts a rest : succ (p ts) a rest ->
  succ (p_rewind p ts) a ts.
Proof.
  intros [H0 [alt H]]. unfold p_rewind. rewrite H. split; cbn [r_errs r_out]; eauto.
Qed.

Lemma succ_recover {A} f (d : A) p ts a rest : succ (p ts) a rest ->
  succ (p_recover_skip_until f d p ts) a rest.
Proof.
  intros H. unfold p_recover_skip_until. pose proof H as [H0 [alt H1]]. rewrite H1. exact H.
Qed.

(** *** Failure *)

Lemma failed_map {A B} (f : A -> B) p ts : failed (p ts) -> failed (p_map f p ts).
Proof. intros [e F]. unfold p_map, failed. cbn [r_out]. rewrite F. eauto. Qed.

Lemma failed_map_inv {A B} (f : A -> B) p ts : failed (p_map f p ts) -> failed (p ts).
Proof.
  intros [e F]. unfold p_map in F. cbn [r_out] in F.
  destruct (r_out (p ts)) eqn:O; [discriminate|]. eexists; eauto.
Qed.

Lemma failed_map_err {A} f (p : parser A) ts : failed (p ts) -> failed (p_map_err f p ts).
Proof. intros [e F]. unfold p_map_err, failed. cbn [r_out]. rewrite F. eauto. Qed.

Lemma failed_map_with_span {A B} (f : A -> Sp -> B) p ts :
  failed (p ts) -> failed (p_map_with_span f p ts).
Proof. intros [e F]. unfold p_map_with_span, failed. cbn [r_out]. rewrite F. eauto. Qed.

Lemma failed_map_err_with_span {A} f (p : parser A) ts :
  failed (p ts) -> failed (p_map_err_with_span f p ts).
Proof.
  intros [e F]. unfold p_map_err_with_span, failed. rewrite F.
  destruct (f (l_err e) (span_since ts (l_rem e))); cbn [r_out]; eauto.
Qed.

Lemma failed_try_map {A B} (f : A -> Sp -> B + perror Sp) p ts :
  failed (p ts) -> failed (p_try_map f p ts).
Proof. intros [e F]. unfold p_try_map, failed. cbn [r_out]. rewrite F. eauto. Qed.

Lemma failed_try_map_err {A B} (f : A -> Sp -> B + perror Sp) p ts a rest e :
  succ (p ts) a rest -> f a (span_since ts (List.length rest)) = inr e ->
  failed (p_try_map f p ts).
Proof.
  intros [_ [alt H]] X. unfold p_try_map, failed. cbn [r_out]. rewrite H, X. eauto.
Qed.

Lemma failed_validate {A B} (f : A -> Sp -> B * option (perror Sp)) p ts :
  failed (p ts) -> failed (p_validate f p ts).
Proof. intros [e F]. unfold p_validate, failed. rewrite F. cbn [r_out]. eauto. Qed.

Lemma failed_bind1 {A B} (p : parser A) (q : A -> parser B) ts :
  failed (p ts) -> failed (p_bind p q ts).
Proof. intros [e F]. unfold p_bind, failed. rewrite F. cbn [r_out]. eauto. Qed.

Lemma failed_bind2 {A B} (p : parser A) (q : A -> parser B) ts a r1 :
  succ (p ts) a r1 -> failed (q a r1) -> failed (p_bind p q ts).
Proof.
  intros [_ [alt H]] [e F]. unfold p_bind, failed. rewrite H, F.
  destruct (lmax_opt e alt). cbn [r_out]. eauto.
Qed.

Lemma failed_then1 {A B} (p : parser A) (q : parser B) ts :
  failed (p ts) -> failed (p_then p q ts).
Proof. apply failed_bind1. Qed.
Lemma failed_then2 {A B} (p : parser A) (q : parser B) ts a r1 :
  succ (p ts) a r1 -> failed (q r1) -> failed (p_then p q ts).
Proof. intros. eapply failed_bind2; eauto. Qed.
Lemma failed_ignore_then1 {A B} (p : parser A) (q : parser B) ts :
  failed (p ts) -> failed (p_ignore_then p q ts).
Proof. intros. apply failed_map, failed_then1. auto. Qed.
Lemma failed_ignore_then2 {A B} (p : parser A) (q : parser B) ts a r1 :
  succ (p ts) a r1 -> failed (q r1) -> failed (p_ignore_then p q ts).
Proof. intros. eapply failed_map, failed_then2; eauto. Qed.
Lemma failed_then_ignore1 {A B} (p : parser A) (q : parser B) ts :
  failed (p ts) -> failed (p_then_ignore p q ts).
Proof. intros. apply failed_map, failed_then1. auto. Qed.
Lemma failed_then_ignore2 {A B} (p : parser A) (q : parser B) ts a r1 :
  succ (p ts) a r1 -> failed (q r1) -> failed (p_then_ignore p q ts).
Proof. intros. eapply failed_map, failed_then2; eauto. Qed.

Lemma failed_just_nil x : failed (p_just x (@nil (tok Sp))).
Proof. eexists; reflexivity. Qed.
Lemma failed_just x c sp rest : c <> x -> failed (p_just x ((c, sp) :: rest)).
Proof.
  intros H. unfold failed, p_just. destruct (N.eqb_spec c x); [contradiction|].
  eexists; reflexivity.
Qed.
Lemma failed_just_iff x ts : failed (p_just x ts) <-> hd_error (chars ts) <> Some x.
Proof.
  destruct ts as [|[c sp] ts]; unfold chars; cbn [map fst hd_error].
  - split; [discriminate|]. intros _. apply failed_just_nil.
  - split.
    + intros F X. inversion X; subst. eapply succ_failed; [apply succ_just|exact F].
    + intros H. apply failed_just. congruence.
Qed.
Lemma failed_filter f c sp rest : f c = false -> failed (p_filter f ((c, sp) :: rest)).
Proof. intros H. unfold failed, p_filter. rewrite H. eexists; reflexivity. Qed.
Lemma failed_filter_nil f : failed (p_filter f (@nil (tok Sp))).
Proof. eexists; reflexivity. Qed.
Lemma failed_filter_iff f ts : failed (p_filter f ts) <->
  match chars ts with [] => True | c :: _ => f c = false end.
Proof.
  destruct ts as [|[c sp] ts]; unfold chars; cbn [map fst].
  - split; [auto|]. intros _. apply failed_filter_nil.
  - split.
    + intros F. destruct (f c) eqn:X; [|auto]. exfalso.
      eapply succ_failed; [apply succ_filter, X|exact F].
    + apply failed_filter.
Qed.

Lemma failed_just_str s ts : ~ prefix s (chars ts) -> failed (p_just_str s ts).
Proof.
  revert ts. induction s as [|x s IH]; intros ts H.
  - exfalso. apply H. exists (chars ts). reflexivity.
  - destruct ts as [|[c sp] ts]; simpl; [eexists; reflexivity|].
    destruct (N.eqb_spec c x).
    + apply IH. intros [u U]. apply H. exists u. simpl. rewrite U. subst. reflexivity.
    + eexists; reflexivity.
Qed.

(** *** Repetition *)

(** The results of repeating a parser, crash logs aside. *)
Inductive schain {A} (p : parser A) : toks -> list A -> toks -> Prop :=
| SChain_nil ts : schain p ts [] ts
| SChain_cons ts a r1 l rest : succ (p ts) a r1 ->
    List.length r1 < List.length ts ->
    schain p r1 l rest -> schain p ts (a :: l) rest.

Lemma schain_len {A} (p : parser A) ts l rest : schain p ts l rest ->
  List.length rest + List.length l <= List.length ts.
Proof. induction 1; simpl in *; lia. Qed.

Lemma schain_app {A} (p : parser A) ts l1 r1 : schain p ts l1 r1 ->
  forall l2 rest, schain p r1 l2 rest -> schain p ts (l1 ++ l2) rest.
Proof. induction 1; intros; simpl; auto. econstructor; eauto. Qed.

Lemma succ_repeat_loop {A} (p : parser A) al am : forall l ts rest,
  schain p ts l rest ->
  forall fuel errs outs alt old cr,
  errs = [] ->
  List.length l < fuel ->
  (forall o, old = Some o -> List.length ts <= o) ->
  al <= List.length outs + List.length l ->
  match am with
  | None => failed (p rest)
  | Some m => List.length outs + List.length l <= m
              /\ (failed (p rest) \/ List.length outs + List.length l = m)
  end ->
  succ (repeat_loop fuel p al am errs outs alt old cr ts) (rev outs ++ l) rest.
Proof.
  intros l ts rest H. induction H as [ts|ts a r1 l rest S L H IH];
    intros fuel errs outs alt old cr He Hf Ho Ha Hm; destruct fuel as [|fuel];
    try (simpl in Hf; lia); cbn [repeat_loop].
  - simpl in *. rewrite app_nil_r.
    destruct (match am with Some m => m <=? List.length outs | None => false end) eqn:St.
    + split; cbn [r_errs r_out]; eauto.
    + assert (failed (p ts)) as [e F].
      { destruct am as [m|]; [|auto]. apply Nat.leb_gt in St.
        destruct Hm as [_ [Hm|Hm]]; [auto|lia]. }
      rewrite F. destruct (List.length outs <? al) eqn:Lt.
      { apply Nat.ltb_lt in Lt. lia. }
      destruct (merge_alts alt (Some e)). split; cbn [r_errs r_out]; eauto.
  - simpl in *.
    destruct (match am with Some m => m <=? List.length outs | None => false end) eqn:St.
    { destruct am as [m|]; [|discriminate]. apply Nat.leb_le in St. lia. }
    destruct S as [S0 [alt1 S]]. rewrite S.
    destruct (merge_alts alt alt1) as [alt' c].
    destruct (match old with Some o => o =? List.length r1 | None => false end) eqn:Np.
    { destruct old as [o|]; [|discriminate]. apply Nat.eqb_eq in Np.
      specialize (Ho o eq_refl). lia. }
    replace (rev outs ++ a :: l) with (rev (a :: outs) ++ l)
      by (simpl; rewrite <- app_assoc; reflexivity).
    apply IH.
    + rewrite He, S0. reflexivity.
    + lia.
    + intros o X. inversion X; subst. lia.
    + simpl. lia.
    + destruct am as [m|]; [|auto]. simpl. destruct Hm as [Hm1 Hm2].
      split; [lia|]. destruct Hm2; [auto|right; lia].
Qed.

Lemma succ_repeated {A} (p : parser A) ts l rest :
  schain p ts l rest -> failed (p rest) -> succ (p_repeated p ts) l rest.
Proof.
  intros H F. unfold p_repeated, p_repeat.
  apply (succ_repeat_loop p 0 None l ts rest H); auto.
  - apply schain_len in H. lia.
  - discriminate.
  - simpl. lia.
Qed.

Lemma succ_repeat1 {A} (p : parser A) ts l rest :
  schain p ts l rest -> failed (p rest) -> l <> [] ->
  succ (p_repeat 1 None p ts) l rest.
Proof.
  intros H F N. unfold p_repeat.
  apply (succ_repeat_loop p 1 None l ts rest H); auto.
  - apply schain_len in H. lia.
  - discriminate.
  - destruct l; [congruence|]. simpl. lia.
Qed.

Lemma succ_exactly {A} (p : parser A) n ts l rest :
  schain p ts l rest -> List.length l = n -> succ (p_exactly n p ts) l rest.
Proof.
  intros H N. unfold p_exactly, p_repeat.
  apply (succ_repeat_loop p n (Some n) l ts rest H); auto.
  - apply schain_len in H. lia.
  - discriminate.
  - simpl. lia.
  - simpl. split; [lia|right; lia].
Qed.

Lemma succ_repeat_1_6 {A} (p : parser A) ts l rest :
  schain p ts l rest -> 1 <= List.length l <= 6 ->
  failed (p rest) \/ List.length l = 6 ->
  succ (p_repeat 1 (Some 6) p ts) l rest.
Proof.
  intros H N F. unfold p_repeat.
  apply (succ_repeat_loop p 1 (Some 6) l ts rest H); auto.
  - apply schain_len in H. lia.
  - discriminate.
  - simpl. lia.
  - simpl. split; [lia|]. destruct F; [left|right]; auto.
Qed.

Lemma failed_repeat1 {A} (p : parser A) ts am : am <> Some 0 ->
  failed (p ts) -> failed (p_repeat 1 am p ts).
Proof.
  intros Ham [e F]. unfold p_repeat.
  change (3 + List.length ts) with (S (2 + List.length ts)). cbn [repeat_loop].
  destruct (match am with Some m => m <=? List.length (@nil A) | None => false end) eqn:St.
  - destruct am as [[|m]|]; [congruence|simpl in St|]; discriminate.
  - rewrite F. simpl. eexists; reflexivity.
Qed.

(** *** Taking until *)

Lemma succ_until_loop {A} (p : parser A) : forall s mid alt outs cr a rest,
  (forall u v, s = u ++ v -> v <> [] -> failed (p (v ++ mid))) ->
  succ (p mid) a rest ->
  succ (until_loop p alt outs cr (s ++ mid)) (rev outs ++ chars s, a) rest.
Proof.
  induction s as [|[c sp] s IH]; intros mid alt outs cr a rest F S.
  - simpl. rewrite app_nil_r. destruct S as [S0 [alt1 S]].
    destruct mid as [|[c sp] mid]; cbn [until_loop]; rewrite S;
      destruct (merge_alts alt alt1); split; cbn [r_errs r_out]; eauto.
  - destruct (F [] ((c, sp) :: s) eq_refl) as [e X]; [discriminate|].
    cbn [app] in *. cbn [until_loop]. rewrite X.
    destruct (merge_alts alt (Some e)) as [alt' cm].
    enough (forall cr', succ (until_loop p alt' (c :: outs) cr' (s ++ mid))
      (rev (c :: outs) ++ chars s, a) rest) as K.
    { match goal with |- succ (until_loop _ _ _ ?x _) _ _ => specialize (K x) end.
      simpl rev in K. rewrite <- app_assoc in K. exact K. }
    intros cr'. apply IH; [|auto]. intros u v X1 Y. apply (F ((c, sp) :: u) v); [|auto].
    rewrite X1. reflexivity.
Qed.

Lemma succ_take_until {A} (p : parser A) s mid a rest :
  (forall u v, s = u ++ v -> v <> [] -> failed (p (v ++ mid))) ->
  succ (p mid) a rest ->
  succ (p_take_until p (s ++ mid)) (chars s, a) rest.
Proof. intros. apply (succ_until_loop p s mid None [] []); auto. Qed.

(** *** Spans *)

Lemma span_since_of s rest : s <> [] ->
  span_since (s ++ rest) (List.length rest) = span_of s.
Proof.
  intros N.
  assert (forall (x : tok Sp) s d,
    nth_error (x :: s) (List.length s) = Some (last (x :: s) d)) as K.
  { clear. intros x s; revert x. induction s as [|y s IH]; intros x d; [reflexivity|].
    change (nth_error (x :: y :: s) (List.length (y :: s)))
      with (nth_error (y :: s) (List.length s)).
    rewrite (IH y d). reflexivity. }
  unfold span_since, span_of.
  destruct s as [|t s]; [congruence|].
  specialize (K t s (0%N, snd t)).
  cbn [app].
  assert (List.length (t :: s ++ rest) - List.length rest - 1
          = List.length s) as -> by (cbn [List.length]; rewrite app_length; lia).
  rewrite app_comm_cons. rewrite nth_error_app1 by (cbn [List.length]; lia).
  rewrite K. destruct t as [c a]. cbn [app snd].
  destruct (last ((c, a) :: s) (0%N, a)). reflexivity.
Qed.

Lemma chars_app s t : chars (s ++ t : toks) = chars s ++ chars t.
Proof. apply map_app. Qed.

Lemma chars_len (s : toks) : List.length (chars s) = List.length s.
Proof. apply map_length. Qed.

Lemma chars_nil (s : toks) : chars s = [] -> s = [].
Proof. destruct s; [auto|discriminate]. Qed.

(** A split of the characters is one of the tokens. *)
Lemma chars_split (s : toks) : forall a b, chars s = a ++ b ->
  exists u v, s = u ++ v /\ chars u = a /\ chars v = b.
Proof.
  induction s as [|[c sp] s IH]; intros a b H.
  - simpl in H. symmetry in H. apply app_nil2 in H. destruct H; subst.
    exists [], []. auto.
  - destruct a as [|x a].
    + exists [], ((c, sp) :: s). auto.
    + simpl in H. inversion H; subst. destruct (IH a b H2) as [u [v [X [Y Z]]]].
      subst. exists ((x, sp) :: u), v. auto.
Qed.

Lemma chars_cons (s : toks) c t : chars s = c :: t ->
  exists sp u, s = (c, sp) :: u /\ chars u = t.
Proof. destruct s as [|[x sp] s]; intros H; inversion H; subst. eauto. Qed.

Lemma chars_singleton (s : toks) c : chars s = [c] -> exists sp, s = [(c, sp)].
Proof.
  intros H. apply chars_cons in H. destruct H as [sp [u [-> H]]].
  apply chars_nil in H. subst. eauto.
Qed.

End Good.

Ltac apps :=
  repeat match goal with
  | H : _ ++ _ = [] |- _ => apply app_nil2 in H; destruct H
  end.
