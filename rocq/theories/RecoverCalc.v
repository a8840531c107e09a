(** Parsers that give a result and emit errors: the combinators. *)

From Coq Require Import NArith ZArith PeanoNat List Bool String Lia ZifyBool.
From Verif Require Import Chars Ast Errors Chumsky Spans Grammar Kdl Good Items Nodes.
Import ListNotations.
Local Open Scope list_scope.

Section Calc.
Context {Sp : Type} {E : env Sp}.

Notation parser := (parser Sp).
Notation toks := (toks Sp).
Notation len := (@List.length (tok Sp)).

(** A result, the errors emitted and the rest. *)
Definition yields {A} (r : presult Sp A) (a : A) (es : list (perror Sp)) (rest : toks) : Prop :=
  map (@l_err Sp) (r_errs r) = es /\ exists alt, r_out r = Ok a rest alt.

Lemma yields_succ {A} (r : presult Sp A) a rest : yields r a [] rest <-> succ r a rest.
Proof.
  unfold yields, succ. split; intros [H K]; (split; [|exact K]).
  - destruct (r_errs r); [reflexivity|discriminate].
  - rewrite H. reflexivity.
Qed.

Lemma y_map {A B} (f : A -> B) p ts a es rest : yields (p ts) a es rest ->
  yields (p_map f p ts) (f a) es rest.
Proof.
  intros [H0 [alt H]]. unfold p_map. split; cbn [r_errs r_out]; [auto|].
  rewrite H. eexists; reflexivity.
Qed.

Lemma y_map_with_span {A B} (f : A -> Sp -> B) p ts a es rest :
  yields (p ts) a es rest ->
  yields (p_map_with_span f p ts) (f a (span_since ts (List.length rest))) es rest.
Proof.
  intros [H0 [alt H]]. unfold p_map_with_span. split; cbn [r_errs r_out]; [auto|].
  rewrite H. eexists; reflexivity.
Qed.

Lemma y_spanned {A} (p : parser A) s rest a es : s <> [] -> yields (p (s ++ rest)) a es rest ->
  yields (p_spanned p (s ++ rest)) (Spanned (span_of s) a) es rest.
Proof.
  intros N S. rewrite <- (span_since_of s rest N).
  apply (y_map_with_span (fun value span => Spanned span value)). exact S.
Qed.

Lemma y_map_err_with_span {A} f (p : parser A) ts a es rest : yields (p ts) a es rest ->
  yields (p_map_err_with_span f p ts) a es rest.
Proof.
  intros H. unfold p_map_err_with_span. destruct H as [H0 [alt H]]. rewrite H.
  split; eauto.
Qed.

Lemma y_try_map {A B} (f : A -> Sp -> B + perror Sp) p ts a b es rest :
  yields (p ts) a es rest -> f a (span_since ts (List.length rest)) = inl b ->
  yields (p_try_map f p ts) b es rest.
Proof.
  intros [H0 [alt H]] F. unfold p_try_map. split; cbn [r_errs r_out]; [auto|].
  rewrite H, F. eexists; reflexivity.
Qed.

Lemma y_validate {A B} (f : A -> Sp -> B * option (perror Sp)) p ts a b es o rest :
  yields (p ts) a es rest -> f a (span_since ts (List.length rest)) = (b, o) ->
  yields (p_validate f p ts) b (es ++ match o with Some e => [e] | None => [] end) rest.
Proof.
  intros [H0 [alt H]] F. unfold p_validate. rewrite H, F.
  split; cbn [r_errs r_out]; [|eexists; reflexivity].
  rewrite map_app, H0. destruct o; reflexivity.
Qed.

Lemma y_then {A B} (p : parser A) (q : parser B) ts a r1 b e1 e2 rest :
  yields (p ts) a e1 r1 -> yields (q r1) b e2 rest ->
  yields (p_then p q ts) (a, b) (e1 ++ e2) rest.
Proof.
  intros [H0 [alt H]] [K0 [alt2 K]]. unfold p_then, p_bind. rewrite H, K.
  destruct (merge_alts alt alt2). split; cbn [r_errs r_out].
  - rewrite map_app, H0, K0. reflexivity.
  - eexists; reflexivity.
Qed.

Lemma y_ignore_then {A B} (p : parser A) (q : parser B) ts a r1 b e1 e2 rest :
  yields (p ts) a e1 r1 -> yields (q r1) b e2 rest ->
  yields (p_ignore_then p q ts) b (e1 ++ e2) rest.
Proof. intros H K. apply (y_map snd (p_then p q) ts (a, b)). eapply y_then; eauto. Qed.

Lemma y_then_ignore {A B} (p : parser A) (q : parser B) ts a r1 b e1 e2 rest :
  yields (p ts) a e1 r1 -> yields (q r1) b e2 rest ->
  yields (p_then_ignore p q ts) a (e1 ++ e2) rest.
Proof. intros H K. apply (y_map fst (p_then p q) ts (a, b)). eapply y_then; eauto. Qed.

(** The cases where only one of the two emits errors. *)
Lemma y_ignore_s {A B} (p : parser A) (q : parser B) ts a r1 b es rest :
  succ (p ts) a r1 -> yields (q r1) b es rest -> yields (p_ignore_then p q ts) b es rest.
Proof. intros H K. apply yields_succ in H. exact (y_ignore_then p q ts a r1 b [] es rest H K). Qed.

Lemma y_then_s {A B} (p : parser A) (q : parser B) ts a r1 b es rest :
  succ (p ts) a r1 -> yields (q r1) b es rest -> yields (p_then p q ts) (a, b) es rest.
Proof. intros H K. apply yields_succ in H. exact (y_then p q ts a r1 b [] es rest H K). Qed.

Lemma y_then_l {A B} (p : parser A) (q : parser B) ts a r1 b es rest :
  yields (p ts) a es r1 -> succ (q r1) b rest -> yields (p_then p q ts) (a, b) es rest.
Proof.
  intros H K. apply yields_succ in K. rewrite <- (app_nil_r es).
  exact (y_then p q ts a r1 b es [] rest H K).
Qed.

Lemma y_then_ignore_s {A B} (p : parser A) (q : parser B) ts a r1 b es rest :
  yields (p ts) a es r1 -> succ (q r1) b rest -> yields (p_then_ignore p q ts) a es rest.
Proof.
  intros H K. apply yields_succ in K. rewrite <- (app_nil_r es).
  exact (y_then_ignore p q ts a r1 b es [] rest H K).
Qed.

Lemma y_delimited {A B C} (p : parser A) (o : parser B) (c : parser C) ts x r1 a r2 y es rest :
  succ (o ts) x r1 -> yields (p r1) a es r2 -> succ (c r2) y rest ->
  yields (p_delimited p o c ts) a es rest.
Proof.
  intros H K L. eapply y_then_ignore_s; [|exact L]. eapply y_ignore_s; [exact H|exact K].
Qed.

Lemma with_alt_yields {A} (r o : presult Sp A) cr a es rest :
  yields r a es rest -> yields (add_crash cr (with_alt r o)) a es rest.
Proof.
  intros [H0 [alt H]]. unfold add_crash, with_alt. rewrite H.
  destruct (merge_alts alt (branch_alt (r_out o))). split; cbn [r_errs r_out]; [auto|].
  eexists; reflexivity.
Qed.

Lemma y_or_l {A} (p q : parser A) ts a es rest :
  yields (p ts) a es rest -> failed (q ts) -> yields (p_or p q ts) a es rest.
Proof.
  intros H [e F]. unfold p_or. pose proof H as [H0 [alt H1]]. rewrite H1, F.
  destruct (r_errs (p ts)); [exact H|]. apply with_alt_yields, H.
Qed.

Lemma y_or_r {A} (p q : parser A) ts a es rest :
  failed (p ts) -> yields (q ts) a es rest -> yields (p_or p q ts) a es rest.
Proof.
  intros [e F] H. unfold p_or. rewrite F. pose proof H as [H0 [alt H1]]. rewrite H1.
  destruct (r_errs (p ts)); apply with_alt_yields; exact H.
Qed.

Lemma y_choice_hit {A} (p : parser A) ps alt ts a es rest :
  yields (p ts) a es rest -> yields (p_choice_from alt (p :: ps) ts) a es rest.
Proof.
  intros H. cbn [p_choice_from]. pose proof H as [H0 [al H1]]. rewrite H1. exact H.
Qed.

Lemma y_choice_miss {A} (p : parser A) ps alt ts a es rest :
  failed (p ts) -> (forall alt', yields (p_choice_from alt' ps ts) a es rest) ->
  yields (p_choice_from alt (p :: ps) ts) a es rest.
Proof.
  intros [e F] H. cbn [p_choice_from]. rewrite F.
  destruct (merge_alts alt (Some e)) as [alt' c]. destruct (H alt') as [H0 [al H1]].
  unfold add_crash. split; cbn [r_errs r_out]; eauto.
Qed.

Lemma y_or_not_some {A} (p : parser A) ts a es rest : yields (p ts) a es rest ->
  yields (p_or_not p ts) (Some a) es rest.
Proof.
  intros [H0 [alt H]]. unfold p_or_not. rewrite H. split; cbn [r_errs r_out]; eauto.
Qed.

(** ** Recovery *)

Lemma skip_to_app f (x rest : toks) : Forall (fun c => f c = false) (chars x) ->
  (exists c t, chars rest = c :: t /\ f c = true) -> skip_to f (x ++ rest) = Some rest.
Proof.
  intros H [c [t [X F]]]. induction x as [|[d sp] x IH].
  - destruct rest as [|[d sp] rest]; [discriminate|]. injection X as -> _.
    cbn [app skip_to]. rewrite F. reflexivity.
  - inversion H; subst. cbn [app skip_to]. cbn [fst] in *.
    match goal with K : f d = false |- _ => rewrite K end. apply IH. assumption.
Qed.

(** A hard error and no other. *)
Definition fails_with {A} (r : presult Sp A) (e : perror Sp) : Prop :=
  r_errs r = [] /\ exists n, r_out r = Err (Located n e).

Lemma y_recover {A} f (d : A) p x rest e :
  fails_with (p (x ++ rest)) e ->
  Forall (fun c => f c = false) (chars x) ->
  (exists c t, chars rest = c :: t /\ f c = true) ->
  yields (p_recover_skip_until f d p (x ++ rest)) d [e] rest.
Proof.
  intros [H0 [n H]] Fx R. unfold p_recover_skip_until. rewrite H.
  rewrite (skip_to_app f x rest Fx R). split; cbn [r_errs r_out]; [|eauto].
  rewrite H0. reflexivity.
Qed.

(** ** Repetition *)

Inductive ychain {A} (p : parser A) : toks -> list A -> list (perror Sp) -> toks -> Prop :=
| YChain_nil ts : ychain p ts [] [] ts
| YChain_cons ts a r1 l e1 e2 rest : yields (p ts) a e1 r1 ->
    List.length r1 < List.length ts ->
    ychain p r1 l e2 rest -> ychain p ts (a :: l) (e1 ++ e2) rest.

Lemma ychain_len {A} (p : parser A) ts l es rest : ychain p ts l es rest ->
  List.length rest + List.length l <= List.length ts.
Proof. induction 1; simpl in *; lia. Qed.

Lemma y_repeat_loop {A} (p : parser A) : forall l ts es rest,
  ychain p ts l es rest ->
  forall fuel errs outs alt old cr,
  List.length l < fuel ->
  (forall o, old = Some o -> List.length ts <= o) ->
  failed (p rest) ->
  yields (repeat_loop fuel p 0 None errs outs alt old cr ts) (rev outs ++ l)
    (map (@l_err Sp) errs ++ es) rest.
Proof.
  intros l ts es rest H. induction H as [ts|ts a r1 l e1 e2 rest S L H IH];
    intros fuel errs outs alt old cr Hf Ho Hm; destruct fuel as [|fuel];
    try (simpl in Hf; lia); cbn [repeat_loop].
  - rewrite !app_nil_r. destruct Hm as [e F]. rewrite F.
    destruct (List.length outs <? 0) eqn:Lt; [apply Nat.ltb_lt in Lt; lia|].
    destruct (merge_alts alt (Some e)). split; cbn [r_errs r_out]; eauto.
  - simpl in Hf. destruct S as [S0 [alt1 S]]. rewrite S.
    destruct (merge_alts alt alt1) as [alt' c].
    destruct (match old with Some o => o =? List.length r1 | None => false end) eqn:Np.
    { destruct old as [o|]; [|discriminate]. apply Nat.eqb_eq in Np.
      specialize (Ho o eq_refl). lia. }
    replace (rev outs ++ a :: l) with (rev (a :: outs) ++ l)
      by (simpl; rewrite <- app_assoc; reflexivity).
    replace (map (@l_err Sp) errs ++ e1 ++ e2)
      with (map (@l_err Sp) (errs ++ r_errs (p ts)) ++ e2)
      by (rewrite map_app, S0, <- app_assoc; reflexivity).
    apply IH; [lia| |exact Hm]. intros o X. inversion X; subst. lia.
Qed.

Lemma y_repeated {A} (p : parser A) ts l es rest :
  ychain p ts l es rest -> failed (p rest) -> yields (p_repeated p ts) l es rest.
Proof.
  intros H F. unfold p_repeated, p_repeat.
  apply (y_repeat_loop p l ts es rest H); [|discriminate|exact F].
  apply ychain_len in H. lia.
Qed.

(** ** [separated_by] *)

Inductive ysepc {A B} (item : parser A) (d : parser B)
  : toks -> list A -> list (perror Sp) -> toks -> Prop :=
| YSep_nil ts : ysepc item d ts [] [] ts
| YSep_cons ts x r1 a r2 l e1 e2 rest : succ (d ts) x r1 -> yields (item r1) a e1 r2 ->
    len r2 < len ts -> ysepc item d r2 l e2 rest ->
    ysepc item d ts (a :: l) (e1 ++ e2) rest.

Lemma y_sep_loop {A B} (item : parser A) (d : parser B) ts l es r :
  ysepc item d ts l es r -> forall x rest, succ (d r) x rest -> fq (item rest) ->
  forall fuel errs outs alt cr, len ts < fuel ->
  exists errs' alt' err c,
    sep_loop fuel item d errs outs alt cr ts = (errs', rev l ++ outs, alt', r, err, c)
    /\ map (@l_err Sp) errs' = map (@l_err Sp) errs ++ es.
Proof.
  induction 1 as [ts|ts y r1 a r2 l e1 e2 rest D I L S IH];
    intros x rs R F fuel errs outs alt cr Hf.
  - destruct fuel as [|fuel]; [lia|]. cbn [sep_loop].
    destruct R as [R0 [al R]]. rewrite R, R0. destruct (merge_alts alt al) as [alt1 c1].
    destruct F as [[e F] F0]. rewrite F, F0. cbn [rev app]. rewrite !app_nil_r.
    do 4 eexists. split; [reflexivity|reflexivity].
  - destruct fuel as [|fuel]; [lia|]. cbn [sep_loop].
    destruct D as [D0 [al D]]. rewrite D, D0. destruct (merge_alts alt al) as [alt1 c1].
    destruct I as [I0 [ial I]]. rewrite I. destruct (merge_alts alt1 ial) as [alt2 c2].
    cbn [app rev].
    edestruct (IH x rs R F fuel (errs ++ r_errs (item r1)) (a :: outs))
      as [errs' [alt' [err [c [X Y]]]]]; [lia|].
    rewrite X, <- app_assoc. do 4 eexists. split; [reflexivity|].
    rewrite Y, map_app, I0, <- app_assoc. reflexivity.
Qed.

Lemma y_separated {A B} (item : parser A) (d : parser B) ts l es r x rest :
  ysepc item d ts l es r -> succ (d r) x rest -> fq (item rest) ->
  yields (p_separated item d ts) l es rest.
Proof.
  intros S R F. unfold p_separated. inversion S as [|t y r1 a r2 l0 e1 e2 r0 D I L S']; subst.
  - destruct (sep_or_not_succ d None r x rest R) as [alt0 [c0 X]]. rewrite X.
    destruct F as [[e F] F0]. rewrite F, F0. destruct (merge_alts alt0 (Some e)).
    split; [reflexivity|]. eexists; reflexivity.
  - destruct (sep_or_not_succ d None ts y r1 D) as [alt0 [c0 X]]. rewrite X.
    destruct I as [I0 [ial I]]. rewrite I. destruct (merge_alts alt0 ial) as [alt1 c1].
    destruct (y_sep_loop item d r2 l0 e2 r S' x rest R F (Datatypes.S (len ts)) (r_errs (item r1)) [a]
      alt1 (c0 ++ r_crash (item r1) ++ c1)) as [errs' [alt' [err [c [Y Z]]]]]; [lia|].
    rewrite Y. destruct (sep_or_not_succ d alt' r x rest R) as [alt3 [c3 X3]]. rewrite X3.
    destruct (merge_alts alt3 err) as [alt4 c4]. split; cbn [r_errs r_out].
    + rewrite Z, I0. reflexivity.
    + rewrite rev_app_distr, rev_involutive. eexists; reflexivity.
Qed.

(** ** The whole parser *)

Lemma run_yields {A} (p : parser A) ts a es rest : r_crash (p ts) = [] ->
  yields (p ts) a es rest -> es <> [] -> run p ts = Rejected es.
Proof.
  intros C [R [alt O]] N. unfold run. rewrite C, O.
  destruct (r_errs (p ts)) as [|e l]; [cbn in R; congruence|]. rewrite R. reflexivity.
Qed.

End Calc.
