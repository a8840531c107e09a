(** The words of the errors of the parsers of src/grammar.rs. *)

From Coq Require Import NArith PeanoNat List Bool String Lia.
From Verif Require Import Chars Ast Errors Chumsky Spans Grammar Safe LexIdent Kdl ErrSpec TokenSet ShownSpec.
Import ListNotations.
Local Open Scope list_scope.

Section Shown.
Context {Sp : Type} {E : env Sp}.
Notation parser := (parser Sp).

Lemma nameable_extend x y : Forall nameable x -> Forall nameable y -> Forall nameable (set_extend x y).
Proof.
  rewrite !Forall_forall. intros X Y k K. apply extend_in in K as [K|K]; auto.
Qed.

(** ** Two properties of errors *)

Lemma extend_incl (l x y : list token) : incl l x -> incl l (set_extend x y).
Proof. intros H k K. apply extend_in. left. auto. Qed.
Lemma extend_keeps (k : token) x y : In k x -> In k (set_extend x y).
Proof. intros H. apply extend_in. now left. Qed.

Lemma worded_nameable l (s : Sp) f x : worded (EUnexpected l s f x) -> Forall nameable x.
Proof. intros W. inversion W; subst; assumption. Qed.

Lemma worded_more l (s : Sp) f x y :
  worded (EUnexpected l s f x) -> Forall nameable y -> worded (EUnexpected l s f (set_extend x y)).
Proof.
  intros W N. pose proof (nameable_extend x y (worded_nameable _ _ _ _ W) N) as M.
  inversion W; subst; constructor; auto using extend_incl, extend_keeps.
Qed.

Lemma worded_merge a b e : worded a -> worded b -> @merge Sp a b = Some e -> worded e.
Proof.
  intros A B M. destruct a, b; cbn [merge] in M; try discriminate; injection M as <-; try assumption.
  eapply worded_more; [exact A|]. eapply worded_nameable. exact B.
Qed.

(** Errors without a label, and unclosed comments. *)
Definition bare (e : perror Sp) : Prop :=
  match e with
  | EUnexpected None _ (TChar _) x | EUnexpected None _ TEoi x => Forall nameable x
  | EUnclosed _ _ _ _ _ _ => worded e
  | _ => False
  end.

Lemma bare_worded e : bare e -> worded e.
Proof.
  destruct e as [[l|] s f x|w oa o ea c f| |]; try exact (fun H => H); try contradiction.
  destruct f; try contradiction; intros H; constructor; exact H.
Qed.

Lemma bare_more (s : Sp) l f x y : bare (EUnexpected l s f x) -> Forall nameable y ->
  bare (EUnexpected l s f (set_extend x y)).
Proof.
  destruct l; [contradiction|]. destruct f; try contradiction; cbn [bare]; apply nameable_extend.
Qed.

Lemma bare_set (s : Sp) l f x y : bare (EUnexpected l s f x) -> Forall nameable y ->
  bare (EUnexpected l s f y).
Proof. destruct l; [contradiction|]. destruct f; try contradiction; auto. Qed.

Lemma bare_merge a b e : bare a -> bare b -> @merge Sp a b = Some e -> bare e.
Proof.
  intros A B M. destruct a, b; cbn [merge] in M; try discriminate; injection M as <-; try assumption;
    try contradiction.
  eapply bare_more; [exact A|]. apply bare_worded in B. eapply worded_nameable. exact B.
Qed.

Class sort (Q : perror Sp -> Prop) : Prop := Sort {
  so_merge : forall a b e, Q a -> Q b -> @merge Sp a b = Some e -> Q e;
  so_found : forall sp c x, Forall nameable x -> Q (EUnexpected None sp (TChar c) x);
  so_end : forall sp x, Forall nameable x -> Q (EUnexpected None sp TEoi x);
  so_bare : forall e, bare e -> Q e;
}.

#[local] Instance sort_worded : sort worded.
Proof. constructor; [exact worded_merge|constructor; assumption|constructor; assumption|exact bare_worded]. Qed.
#[local] Instance sort_bare : sort bare.
Proof. constructor; [exact bare_merge|intros; assumption|intros; assumption|auto]. Qed.

(** ** Combinators

    for any property of errors that merging keeps and that the errors of the library
    have. *)

Section Sort.
Context (Qe : perror Sp -> Prop) {Se : sort Qe}.

Definition lw (l : located Sp) : Prop := Qe (l_err l).
Definition ow (o : option (located Sp)) : Prop := match o with Some l => lw l | None => True end.
Definition out_w {A} (o : outcome Sp A) : Prop :=
  match o with Ok _ _ alt => ow alt | Err e => lw e end.
Definition rw {A} (r : presult Sp A) : Prop := Forall lw (r_errs r) /\ out_w (r_out r).
Definition wd {A} (p : parser A) : Prop := forall ts, rw (p ts).

Lemma lmax_w a b : lw a -> lw b -> lw (fst (lmax a b)).
Proof.
  intros A B. unfold lmax. destruct (Nat.compare _ _); try assumption.
  destruct (merge (l_err a) (l_err b)) as [e|] eqn:M; [|assumption].
  exact (so_merge _ _ _ A B M).
Qed.

Lemma lmax_opt_w a b : lw a -> ow b -> lw (fst (lmax_opt a b)).
Proof. destruct b; cbn [lmax_opt ow]; [apply lmax_w|auto]. Qed.

Lemma merge_alts_w a b : ow a -> ow b -> ow (fst (merge_alts a b)).
Proof.
  destruct a as [a|], b as [b|]; cbn [merge_alts ow fst]; auto. intros A B.
  pose proof (lmax_w b a B A) as H. destruct (lmax b a). exact H.
Qed.

Lemma merge_alts_list_w l : Forall lw l -> forall a, ow a -> ow (fst (merge_alts_list a l)).
Proof.
  induction 1 as [|b l B _ IH]; intros a A; [exact A|]. cbn [merge_alts_list].
  pose proof (merge_alts_w a (Some b) A B) as H. destruct (merge_alts a (Some b)) as [m c].
  specialize (IH m H). destruct (merge_alts_list m l). exact IH.
Qed.

Lemma unexpected_w ts x : lw (unexpected ts x).
Proof.
  assert (forall y, Forall nameable (set_extend [] (map token_of y))) as N.
  { intros y. apply nameable_extend; [constructor|]. apply Forall_map, Forall_forall.
    intros [c|] _; exact I. }
  destruct ts as [|[c s] ts]; [apply so_end|apply so_found]; apply N.
Qed.

Lemma rw_fail {A} e : lw e -> rw (@fail Sp A e).
Proof. intros H. split; [constructor|exact H]. Qed.

Lemma wd_filter f : wd (p_filter f).
Proof.
  intros [|[c s] ts]; cbn [p_filter]; [apply rw_fail, unexpected_w|].
  destruct (f c); [split; [constructor|exact I]|apply rw_fail, unexpected_w].
Qed.

Lemma wd_none_of x : wd (p_none_of x).
Proof. apply wd_filter. Qed.

Lemma wd_just x : wd (p_just x).
Proof.
  intros [|[c s] ts]; cbn [p_just]; [apply rw_fail, unexpected_w|].
  destruct (N.eqb c x); [split; [constructor|exact I]|apply rw_fail, unexpected_w].
Qed.

Lemma wd_just_str x : wd (p_just_str x).
Proof.
  induction x as [|x y IH]; intros [|[c s] ts]; cbn [p_just_str];
    try (split; [constructor|exact I]); [apply rw_fail, unexpected_w|].
  destruct (N.eqb c x); [apply IH|apply rw_fail, unexpected_w].
Qed.

Lemma wd_end : wd p_end.
Proof. intros [|t ts]; cbn [p_end]; [split; [constructor|exact I]|apply rw_fail, unexpected_w]. Qed.

Lemma wd_filter_map {A} (f : Sp -> char -> A + perror Sp) :
  (forall s c, match f s c with inl _ => True | inr e => Qe e end) -> wd (p_filter_map f).
Proof.
  intros F [|[c s] ts]; cbn [p_filter_map]; [apply rw_fail, unexpected_w|].
  specialize (F s c). destruct (f s c); [split; [constructor|exact I]|apply rw_fail, F].
Qed.

Lemma wd_map {A B} (f : A -> B) p : wd p -> wd (p_map f p).
Proof.
  intros P ts. destruct (P ts) as [H K]. split; [exact H|]. cbn [p_map r_out].
  destruct (r_out (p ts)); exact K.
Qed.

Lemma wd_map_with_span {A B} (f : A -> Sp -> B) p : wd p -> wd (p_map_with_span f p).
Proof.
  intros P ts. destruct (P ts) as [H K]. split; [exact H|]. cbn [p_map_with_span r_out].
  destruct (r_out (p ts)); exact K.
Qed.

Lemma wd_map_err {A} f (p : parser A) : (forall e, Qe e -> Qe (f e)) -> wd p -> wd (p_map_err f p).
Proof.
  intros F P ts. destruct (P ts) as [H K]. split; [exact H|]. cbn [p_map_err r_out].
  destruct (r_out (p ts)); [exact K|]. apply F, K.
Qed.

Lemma wd_map_err_with_span {A} f (p : parser A) :
  (forall e sp e', Qe e -> f e sp = Some e' -> Qe e') -> wd p -> wd (p_map_err_with_span f p).
Proof.
  intros F P ts. destruct (P ts) as [H K]. unfold p_map_err_with_span.
  destruct (r_out (p ts)) as [a rest alt|e] eqn:O.
  - split; [exact H|]. rewrite O. exact K.
  - destruct (f (l_err e) _) as [e'|] eqn:X; (split; [exact H|]); [eapply F; [exact K|exact X]|exact K].
Qed.

Lemma wd_try_map {A B} (f : A -> Sp -> B + perror Sp) p :
  (forall a s, match f a s with inl _ => True | inr e => Qe e end) -> wd p -> wd (p_try_map f p).
Proof.
  intros F P ts. destruct (P ts) as [H K]. split; [exact H|]. cbn [p_try_map r_out].
  destruct (r_out (p ts)) as [a rest alt|e]; [|exact K].
  specialize (F a (span_since ts (List.length rest))). destruct (f a _); [exact K|exact F].
Qed.

Lemma wd_validate {A B} (f : A -> Sp -> B * option (perror Sp)) p :
  (forall a s, match snd (f a s) with None => True | Some e => Qe e end) -> wd p ->
  wd (p_validate f p).
Proof.
  intros F P ts. destruct (P ts) as [H K]. unfold p_validate.
  destruct (r_out (p ts)) as [a rest alt|e]; [|split; [exact H|exact K]].
  specialize (F a (span_since ts (List.length rest))). destruct (f a _) as [b [e|]]; cbn [snd] in F.
  - split; [|exact K]. cbn [r_errs]. apply Forall_app. split; [exact H|]. constructor; [exact F|constructor].
  - split; [|exact K]. cbn [r_errs]. rewrite app_nil_r. exact H.
Qed.

Lemma wd_bind {A B} (p : parser A) (k : A -> parser B) : wd p -> (forall a, wd (k a)) -> wd (p_bind p k).
Proof.
  intros P K ts. destruct (P ts) as [H1 H2]. unfold p_bind.
  destruct (r_out (p ts)) as [a rest alt|e]; [|split; [exact H1|exact H2]].
  destruct (K a rest) as [K1 K2]. destruct (r_out (k a rest)) as [b rest2 alt2|e].
  - pose proof (merge_alts_w alt alt2 H2 K2) as M. destruct (merge_alts alt alt2).
    split; [cbn [r_errs]; apply Forall_app; auto|exact M].
  - pose proof (lmax_opt_w e alt K2 H2) as M. destruct (lmax_opt e alt).
    split; [cbn [r_errs]; apply Forall_app; auto|exact M].
Qed.

Lemma wd_then {A B} (p : parser A) (q : parser B) : wd p -> wd q -> wd (p_then p q).
Proof. intros P Q. apply wd_bind; [exact P|intros _; exact Q]. Qed.
Lemma wd_ignored {A} (p : parser A) : wd p -> wd (p_ignored p).
Proof. apply wd_map. Qed.
Lemma wd_ignore_then {A B} (p : parser A) (q : parser B) : wd p -> wd q -> wd (p_ignore_then p q).
Proof. intros P Q. apply wd_map, wd_then; assumption. Qed.
Lemma wd_then_ignore {A B} (p : parser A) (q : parser B) : wd p -> wd q -> wd (p_then_ignore p q).
Proof. intros P Q. apply wd_map, wd_then; assumption. Qed.
Lemma wd_delimited {A B C} (p : parser A) (o : parser B) (c : parser C) :
  wd p -> wd o -> wd c -> wd (p_delimited p o c).
Proof. intros P O D. apply wd_then_ignore; [apply wd_ignore_then; assumption|exact D]. Qed.

Lemma branch_w {A} (o : outcome Sp A) : out_w o -> ow (branch_alt o).
Proof. destruct o; exact (fun H => H). Qed.

Lemma wd_or {A} (p q : parser A) : wd p -> wd q -> wd (p_or p q).
Proof.
  intros P Q ts. destruct (P ts) as [H1 H2]. destruct (Q ts) as [K1 K2].
  pose proof (branch_w _ H2) as B1. pose proof (branch_w _ K2) as B2.
  destruct (p_or_cases p q ts) as
    [(a & rest & alt & He & Ho & ->)
    |[_ [(a & rest & alt & alt' & c & Ho & He & M & ->)
        |[(a & rest & alt & alt' & c & Ho & M & ->)
         |(ea & eb & Ha & Hb & [[-> _]|[[-> _]|(e & c & M & Le & ->)]])]]]].
  - split; assumption.
  - split; [exact H1|]. rewrite Ho in H2. cbn [r_out out_w].
    pose proof (merge_alts_w _ _ H2 B2) as X. rewrite M in X. exact X.
  - split; [exact K1|]. rewrite Ho in K2. cbn [r_out out_w].
    pose proof (merge_alts_w _ _ K2 B1) as X. rewrite M in X. exact X.
  - rewrite Ha in H2. split; assumption.
  - rewrite Hb in K2. split; assumption.
  - rewrite Ha in H2. rewrite Hb in K2. split; [exact H1|].
    pose proof (lmax_w _ _ H2 K2) as X. rewrite M in X. exact X.
Qed.

Lemma wd_choice {A} (ps : list (parser A)) : Forall wd ps -> wd (p_choice ps).
Proof.
  intros F. unfold p_choice. cut (forall alt, ow alt -> wd (p_choice_from alt ps)).
  { intros H. apply H. exact I. }
  induction F as [|p ps P _ IH]; intros alt Al ts; cbn [p_choice_from].
  - destruct alt; [apply rw_fail, Al|]. split; [constructor|apply unexpected_w].
  - destruct (P ts) as [H1 H2]. destruct (r_out (p ts)) as [a rest al|e] eqn:O.
    + split; [exact H1|]. rewrite O. exact H2.
    + pose proof (merge_alts_w alt (Some e) Al H2) as M. destruct (merge_alts alt (Some e)) as [alt' c].
      specialize (IH alt' M ts). destruct IH as [I1 I2]. split; assumption.
Qed.

Lemma wd_or_not {A} (p : parser A) : wd p -> wd (p_or_not p).
Proof.
  intros P ts. destruct (P ts) as [H1 H2]. unfold p_or_not.
  destruct (r_out (p ts)); split; try assumption. constructor.
Qed.

Lemma wd_rewind {A} (p : parser A) : wd p -> wd (p_rewind p).
Proof.
  intros P ts. destruct (P ts) as [H K]. split; [exact H|]. cbn [p_rewind r_out].
  destruct (r_out (p ts)); exact K.
Qed.

Lemma repeat_w {A} (p : parser A) lo hi : wd p -> forall fuel errs outs alt old cr ts,
  Forall lw errs -> ow alt -> rw (repeat_loop fuel p lo hi errs outs alt old cr ts).
Proof.
  intros P. induction fuel as [|fuel IH]; intros errs outs alt old cr ts F Al; cbn [repeat_loop].
  - split; assumption.
  - destruct (match hi with Some m => m <=? List.length outs | None => false end); [split; assumption|].
    destruct (P ts) as [H1 H2]. destruct (r_out (p ts)) as [a rest al|e].
    + pose proof (merge_alts_w alt al Al H2) as M. destruct (merge_alts alt al) as [alt' c].
      assert (Forall lw (errs ++ r_errs (p ts))) by (apply Forall_app; auto).
      destruct (match old with Some o => o =? List.length rest | None => false end); [split; assumption|].
      apply IH; assumption.
    + destruct (List.length outs <? lo).
      * split; [cbn [r_errs]; apply Forall_app; auto|exact H2].
      * pose proof (merge_alts_w alt (Some e) Al H2) as M. destruct (merge_alts alt (Some e)).
        split; assumption.
Qed.

Lemma wd_repeat {A} lo hi (p : parser A) : wd p -> wd (p_repeat lo hi p).
Proof. intros P ts. apply repeat_w; [exact P|constructor|exact I]. Qed.

Lemma wd_repeated {A} (p : parser A) : wd p -> wd (p_repeated p).
Proof. apply wd_repeat. Qed.

Lemma until_w {A} (p : parser A) : wd p -> forall ts alt outs cr, ow alt -> rw (until_loop p alt outs cr ts).
Proof.
  intros P. induction ts as [|[x s] ts IH]; intros alt outs cr Al; cbn [until_loop].
  - destruct (P []) as [H1 H2]. destruct (r_out (p [])) as [a rest al|e].
    + pose proof (merge_alts_w alt al Al H2) as M. destruct (merge_alts alt al). split; assumption.
    + split; assumption.
  - match goal with |- context [r_out (p ?l)] => destruct (P l) as [H1 H2]; destruct (r_out (p l)) as [a rest al|e] end.
    + pose proof (merge_alts_w alt al Al H2) as M. destruct (merge_alts alt al). split; [exact H1|exact M].
    + pose proof (merge_alts_w alt (Some e) Al H2) as M. destruct (merge_alts alt (Some e)).
      apply IH. exact M.
Qed.

Lemma wd_take_until {A} (p : parser A) : wd p -> wd (p_take_until p).
Proof. intros P ts. apply until_w; [exact P|exact I]. Qed.

Lemma wd_recover {A} f (a : A) p : wd p -> wd (p_recover_skip_until f a p).
Proof.
  intros P ts. destruct (P ts) as [H1 H2]. unfold p_recover_skip_until.
  destruct (r_out (p ts)) as [b rest al|e] eqn:O; [split; [exact H1|rewrite O; exact H2]|].
  destruct (skip_to f ts).
  - split; [|exact I]. cbn [r_errs]. apply Forall_app. split; [exact H1|]. constructor; [exact H2|constructor].
  - split; [exact H1|]. rewrite O. exact H2.
Qed.

Lemma sep_or_not_w {B} (d : parser B) alt ts : wd d -> ow alt -> ow (fst (fst (sep_or_not d alt ts))).
Proof.
  intros D Al. destruct (D ts) as [H1 H2]. unfold sep_or_not.
  destruct (r_out (d ts)) as [b rest al|e].
  - pose proof (merge_alts_list_w _ H1 al H2) as M. destruct (merge_alts_list al _) as [m c1]. cbn [fst] in M.
    pose proof (merge_alts_w alt m Al M) as M'. destruct (merge_alts alt m). exact M'.
  - pose proof (merge_alts_list_w _ H1 (Some e) H2) as M. destruct (merge_alts_list (Some e) _) as [m c1].
    cbn [fst] in M.
    pose proof (merge_alts_w alt m Al M) as M'. destruct (merge_alts alt m). exact M'.
Qed.

Lemma sep_loop_w {A B} (p : parser A) (d : parser B) : wd p -> wd d ->
  forall fuel errs outs alt cr ts errs' outs' alt' ts' err cr',
  Forall lw errs -> ow alt ->
  sep_loop fuel p d errs outs alt cr ts = (errs', outs', alt', ts', err, cr') ->
  Forall lw errs' /\ ow alt' /\ ow err.
Proof.
  intros P D. induction fuel as [|fuel IH]; intros errs outs alt cr ts errs' outs' alt' ts' err cr' F Al H;
    cbn [sep_loop] in H.
  - injection H as <- <- <- <- <- <-. repeat split; auto.
  - destruct (D ts) as [D1 D2]. destruct (r_out (d ts)) as [b rest al|e].
    + pose proof (merge_alts_w alt al Al D2) as M. destruct (merge_alts alt al) as [alt1 c1]. cbn [fst] in M.
      destruct (P rest) as [P1 P2].
      assert (Forall lw (errs ++ r_errs (d ts) ++ r_errs (p rest))) as F' by (rewrite !Forall_app; auto).
      destruct (r_out (p rest)) as [a rest' al'|e].
      * pose proof (merge_alts_w alt1 al' M P2) as M'. destruct (merge_alts alt1 al') as [alt2 c2].
        exact (IH _ _ _ _ _ _ _ _ _ _ _ F' M' H).
      * injection H as <- <- <- <- <- <-. repeat split; assumption.
    + injection H as <- <- <- <- <- <-. repeat split; [apply Forall_app; auto|assumption|assumption].
Qed.

Lemma wd_separated {A B} (p : parser A) (d : parser B) : wd p -> wd d -> wd (p_separated p d).
Proof.
  intros P D ts. unfold p_separated.
  pose proof (sep_or_not_w d None ts D I) as A0. destruct (sep_or_not d None ts) as [[alt0 ts0] c0].
  cbn [fst] in A0. destruct (P ts0) as [P1 P2]. destruct (r_out (p ts0)) as [a rest al|e].
  - pose proof (merge_alts_w alt0 al A0 P2) as M. destruct (merge_alts alt0 al) as [alt1 c1]. cbn [fst] in M.
    destruct (sep_loop _ p d _ [a] alt1 _ _) as [[[[[errs outs] alt2] ts2] err] c2] eqn:SL.
    destruct (sep_loop_w p d P D _ _ _ _ _ _ _ _ _ _ _ _ P1 M SL) as [R1 [R2 R3]].
    pose proof (sep_or_not_w d alt2 ts2 D R2) as A3. destruct (sep_or_not d alt2 ts2) as [[alt3 ts3] c3].
    cbn [fst] in A3. pose proof (merge_alts_w alt3 err A3 R3) as A4. destruct (merge_alts alt3 err).
    split; assumption.
  - pose proof (merge_alts_w alt0 (Some e) A0 P2) as M. destruct (merge_alts alt0 (Some e)).
    split; assumption.
Qed.

Lemma run_wd {A} (p : parser A) ts errs : wd p -> run p ts = Rejected errs -> Forall Qe errs.
Proof.
  intros P. destruct (P ts) as [H K]. unfold run. destruct (r_crash (p ts)); [|discriminate].
  assert (forall l, Forall lw l -> Forall Qe (map l_err l)) as M.
  { intros l F. apply Forall_map. exact F. }
  destruct (r_out (p ts)) as [a rest alt|e].
  - destruct (r_errs (p ts)) as [|x l]; [discriminate|]. intros [= <-]. exact (M (x :: l) H).
  - intros [= <-]. apply M, Forall_app. split; [exact H|]. constructor; [exact K|constructor].
Qed.

End Sort.

Lemma wd_bare {A} (p : parser A) : wd bare p -> wd worded p.
Proof.
  intros P ts. destruct (P ts) as [H K]. split.
  - eapply Forall_impl; [|exact H]. intros l. apply bare_worded.
  - destruct (r_out (p ts)) as [a rest [alt|]|e]; try exact I; apply bare_worded, K.
Qed.

(** ** The grammar *)

Lemma w_no_expected (e : perror Sp) : bare e -> bare (with_no_expected e).
Proof. destruct e; try exact (fun H => H). intros H. eapply bare_set; [exact H|constructor]. Qed.
Lemma w_expected_kind k (e : perror Sp) : nameable (TKind k) -> bare e -> bare (with_expected_kind k e).
Proof.
  intros N. destruct e; try exact (fun H => H). intros H. eapply bare_set; [exact H|].
  constructor; [exact N|constructor].
Qed.
Lemma w_expected_token k (e : perror Sp) : nameable (TToken k) -> bare e -> bare (with_expected_token k e).
Proof.
  intros N. destruct e; try exact (fun H => H). intros H. eapply bare_set; [exact H|].
  constructor; [exact N|constructor].
Qed.

Create HintDb wdd discriminated.
#[local] Hint Constants Opaque : wdd.
#[local] Hint Resolve sort_worded sort_bare wd_bare : wdd.
Ltac named := cbn; tauto.
Ltac foralls := repeat first [apply Forall_nil | apply Forall_cons].
Ltac wd1 :=
  first
  [ match goal with H : wd ?q ?p |- wd ?q ?p => exact H end
  | solve [auto with wdd nocore]
  | lazymatch goal with
    | |- wd _ ?p =>
      lazymatch p with
      | p_filter _ => apply wd_filter
      | p_none_of _ => apply wd_none_of
      | p_just _ => apply wd_just
      | p_just_str _ => apply wd_just_str
      | p_end => apply wd_end
      | p_map _ _ => apply wd_map
      | p_ignored _ => apply wd_ignored
      | p_ignore_then _ _ => apply wd_ignore_then
      | p_then_ignore _ _ => apply wd_then_ignore
      | p_delimited _ _ _ => apply wd_delimited
      | p_then _ _ => apply wd_then
      | p_or _ _ => apply wd_or
      | p_choice _ => apply wd_choice; foralls
      | p_or_not _ => apply wd_or_not
      | p_repeat _ _ _ => apply wd_repeat
      | p_repeated _ => apply wd_repeat
      | p_exactly _ _ => apply wd_repeat
      | p_take_until _ => apply wd_take_until
      | p_rewind _ => apply wd_rewind
      | p_spanned _ => apply wd_map_with_span
      | p_separated _ _ => apply wd_separated
      | p_map_err with_no_expected _ => try apply wd_bare; apply wd_map_err; [apply w_no_expected|]
      | p_map_err (with_expected_kind _) _ => try apply wd_bare; apply wd_map_err; [intros ?; apply w_expected_kind; named|]
      | p_map_err (with_expected_token _) _ => try apply wd_bare; apply wd_map_err; [intros ?; apply w_expected_token; named|]
      end
    end ].
Ltac wds := repeat wd1.

Lemma unclosed_w Q {S : sort Q} (b : bool) what o o' c c' (e : perror Sp) oa ea e' :
  delimiters what o o' c c' -> Q e ->
  (if b then merge e (EUnclosed what oa o ea c TEoi) else Some e) = Some e' -> Q e'.
Proof.
  intros D W H. destruct b; [|congruence].
  eapply so_merge; [exact W| |exact H]. apply so_bare. cbn [bare]. econstructor. exact D.
Qed.

Lemma wd_begin_comment c : wd bare (begin_comment c).
Proof. unfold begin_comment. wds. Qed.
Hint Resolve wd_begin_comment : wdd.
Lemma wd_newline : wd bare newline.
Proof. unfold newline. wds. Qed.
Hint Resolve wd_newline : wdd.
Lemma wd_ws_char : wd bare ws_char.
Proof. unfold ws_char. wds. Qed.
Hint Resolve wd_ws_char : wdd.
Lemma wd_id_char : wd bare id_char.
Proof. unfold id_char. wds. Qed.
Lemma wd_id_sans_dig : wd bare id_sans_dig.
Proof. unfold id_sans_dig. wds. Qed.
Lemma wd_id_sans_sign_dig : wd bare id_sans_sign_dig.
Proof. unfold id_sans_sign_dig. wds. Qed.
Hint Resolve wd_id_char wd_id_sans_dig wd_id_sans_sign_dig : wdd.

Lemma wd_ml_rec n : wd bare (ml_comment_rec n).
Proof.
  induction n as [|n IH]; cbn [ml_comment_rec].
  - intros ts. split; [constructor|apply (unexpected_w bare)].
  - unfold ml_body. wds.
Qed.

Lemma wd_ml_comment : wd bare ml_comment.
Proof.
  intros ts. unfold ml_comment. apply wd_map_err_with_span; [|apply wd_ml_rec].
  intros e sp e' W H. eapply (unclosed_w bare); [exact Del_comment|exact W|exact H].
Qed.
Hint Resolve wd_ml_comment : wdd.

Lemma wd_ws : wd bare ws.
Proof. unfold ws. wds. Qed.
Hint Resolve wd_ws : wdd.
Lemma wd_comment : wd bare comment.
Proof. unfold comment. wds. Qed.
Hint Resolve wd_comment : wdd.

Lemma wd_raw_string : wd worded raw_string.
Proof.
  unfold raw_string. apply (wd_map worded). apply (wd_bind worded); [wds|]. intros n. apply (wd_map_err_with_span worded); [|wds].
  intros e sp e' W H. eapply (unclosed_w worded); [exact (Del_raw n)|exact W|exact H].
Qed.
Hint Resolve wd_raw_string : wdd.

Lemma wd_esc_char : wd worded esc_char.
Proof.
  unfold esc_char. apply (wd_or worded).
  - apply (wd_filter_map worded). intros s c. unfold esc_simple.
    repeat match goal with |- context [if ?b then _ else _] => destruct b; [exact I|] end.
    apply Wd_escape.
    + intros k K. apply extend_in. now right.
    + apply nameable_extend; [constructor|]. repeat (constructor; [exact I|]). constructor.
  - apply (wd_ignore_then worded); [wds|]. apply (wd_recover worded), (wd_try_map worded).
    + intros a s. unfold esc_code. destruct (is_scalar _); [exact I|constructor].
    + apply (wd_delimited worded); [|wds|wds]. apply (wd_repeat worded), (wd_filter_map worded).
      intros s c. unfold esc_hex. destruct (is_digit 16 c); [exact I|]. apply Wd_hex; [now left|].
      constructor; [named|constructor].
Qed.
Hint Resolve wd_esc_char : wdd.

Lemma wd_escaped_string : wd worded escaped_string.
Proof.
  unfold escaped_string. apply (wd_ignore_then worded); [wds|]. apply (wd_map_err_with_span worded); [|wds].
  intros e sp e' W H. eapply (unclosed_w worded); [exact Del_string|exact W|exact H].
Qed.
Hint Resolve wd_escaped_string : wdd.

Lemma wd_string : wd worded string_.
Proof. unfold string_. wds. Qed.
Hint Resolve wd_string : wdd.

Lemma wd_bare_ident : wd worded bare_ident.
Proof.
  unfold bare_ident. apply (wd_try_map worded); [|unfold plus_minus; wds].
  intros a s. unfold not_keyword, keyword_error.
  destruct (text_eqb a (str "true")); [constructor; [named|now left|constructor; [named|constructor]]|].
  destruct (text_eqb a (str "false")); [constructor; [named|now left|constructor; [named|constructor]]|].
  destruct (text_eqb a (str "null")); [constructor; [named|now left|constructor; [named|constructor]]|]. exact I.
Qed.
Hint Resolve wd_bare_ident : wdd.

Lemma wd_number : wd worded number.
Proof.
  unfold number, radix_number, decimal_number, fraction, exponent, radix_digits, opt_sign, digits, digit. wds.
Qed.
Hint Resolve wd_number : wdd.

Lemma wd_ident : wd worded ident.
Proof.
  unfold ident. apply (wd_try_map worded); [|wds]. intros [a|a] s; [|exact I].
  cbn [not_number]. constructor; [now left|]. constructor; [named|constructor].
Qed.
Hint Resolve wd_ident : wdd.

Lemma wd_keyword : wd worded keyword.
Proof. unfold keyword, keyword1. wds. Qed.
Hint Resolve wd_keyword : wdd.
Lemma wd_literal : wd worded literal_.
Proof. unfold literal_. wds. Qed.
Hint Resolve wd_literal : wdd.
Lemma wd_type_name : wd worded type_name.
Proof. unfold type_name. wds. Qed.
Hint Resolve wd_type_name : wdd.
Lemma wd_esc_line : wd worded esc_line.
Proof. unfold esc_line. wds. Qed.
Hint Resolve wd_esc_line : wdd.
Lemma wd_node_space : wd worded node_space.
Proof. unfold node_space. wds. Qed.
Hint Resolve wd_node_space : wdd.
Lemma wd_node_terminator : wd worded node_terminator.
Proof. unfold node_terminator. wds. Qed.
Hint Resolve wd_node_terminator : wdd.
Lemma wd_type_name_value : wd worded type_name_value.
Proof. unfold type_name_value. wds. Qed.
Hint Resolve wd_type_name_value : wdd.
Lemma wd_value : wd worded value_.
Proof. unfold value_. wds. Qed.
Hint Resolve wd_value : wdd.
Lemma wd_opt_value : wd worded opt_value.
Proof. unfold opt_value. wds. Qed.
Hint Resolve wd_opt_value : wdd.

Lemma wd_prop_or_arg_inner : wd worded prop_or_arg_inner.
Proof.
  unfold prop_or_arg_inner. apply (wd_choice worded). foralls; [|apply (wd_map worded)|wds].
  - apply (wd_try_map worded); [|wds]. intros [[sp l] v] s. unfold literal_item. cbn [s_span s_value].
    destruct l, v; try exact I; try constructor; try (intros k K; apply extend_in; now right);
      (apply nameable_extend; [constructor|repeat (constructor; [named|]); constructor]).
  - apply (wd_validate worded); [|wds]. intros [x v] s. unfold ident_item_check. cbn [snd].
    destruct v; [exact I|constructor].
Qed.
Hint Resolve wd_prop_or_arg_inner : wdd.

Lemma wd_prop_or_arg : wd worded prop_or_arg.
Proof. unfold prop_or_arg. wds. Qed.
Hint Resolve wd_prop_or_arg : wdd.
Lemma wd_line_space : wd worded line_space.
Proof. unfold line_space. wds. Qed.
Hint Resolve wd_line_space : wdd.
Lemma wd_slashdash : wd worded slashdash.
Proof. unfold slashdash. wds. Qed.
Hint Resolve wd_slashdash : wdd.
Lemma wd_node_items : wd worded node_items.
Proof. unfold node_items. wds. Qed.
Hint Resolve wd_node_items : wdd.

Lemma wd_braced p : wd worded p -> wd worded (braced_nodes p).
Proof.
  intros P. unfold braced_nodes. apply (wd_ignore_then worded); [wds|]. apply (wd_map_err_with_span worded); [|wds].
  intros e sp e' W H. eapply (unclosed_w worded); [exact Del_braces|exact W|exact H].
Qed.

Lemma wd_opt_children p : wd worded p -> wd worded (opt_children p).
Proof. intros P. unfold opt_children. wds. apply wd_braced, P. Qed.

Lemma wd_node p : wd worded p -> wd worded (node_ p).
Proof. intros P. unfold node_. wds. apply wd_opt_children; exact P. Qed.

Lemma wd_nodes_body p : wd worded p -> wd worded (nodes_body p).
Proof. intros P. unfold nodes_body. wds. apply wd_node; exact P. Qed.

Lemma wd_nodes_rec n : wd worded (nodes_rec n).
Proof.
  induction n as [|n IH]; cbn [nodes_rec].
  - intros ts. split; [constructor|apply (unexpected_w worded)].
  - apply wd_nodes_body, IH.
Qed.

Lemma wd_document : wd worded document_.
Proof.
  unfold document_. apply (wd_then_ignore worded); [|wds]. intros ts. exact (wd_nodes_rec _ ts).
Qed.

Lemma run_worded ts errs : run document_ ts = Rejected errs -> Forall worded errs.
Proof. apply (run_wd worded), wd_document. Qed.

End Shown.

Lemma parse_worded t errs : parse_ast_span t = Rejected errs -> Forall worded errs.
Proof. unfold parse_ast_span. destruct (span_stream t) as [ts eoi]. apply run_worded. Qed.

Lemma parse_worded_line width t errs : parse_ast_linespan width t = Rejected errs -> Forall worded errs.
Proof. unfold parse_ast_linespan. destruct (linespan_stream width t) as [ts eoi]. apply run_worded. Qed.
