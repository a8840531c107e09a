(** Where the errors of a parser lie, with respect to a set [V] of texts that can
    still become a document, for each combinator. *)

From Coq Require Import NArith PeanoNat List Bool String Lia.
From Verif Require Import Chars Ast Errors Chumsky Spans Grammar Safe GrammarSafe Kdl SpanProps ErrSpec TokenSet Good ErrAt ErrGrammar LaxSpec.
Import ListNotations.
Local Open Scope list_scope.

Definition pfx (L : lang) (m : text) : Prop := exists s, L (m ++ s).

(** [m] begins [q], but for its last character if that stands for one of [q]. *)
Definition near (q m : text) : Prop :=
  exists m' q1, q = m' ++ q1 /\ (m = m' \/ exists x, q1 <> [] /\ m = m' ++ [x]).

Definition inhabited (L : lang) : Prop := exists s, L s.

Lemma near_prefix m q : near (m ++ q) m.
Proof. exists m, q. auto. Qed.

Lemma near_instead m c q x : near (m ++ c :: q) (m ++ [x]).
Proof. exists m, (c :: q). split; [reflexivity|]. right. exists x. split; [discriminate|reflexivity]. Qed.

Lemma near_app m q m2 : near q m2 -> near (m ++ q) (m ++ m2).
Proof.
  intros (m' & q1 & -> & H). exists (m ++ m'), q1. split; [apply app_assoc|].
  destruct H as [->|(x & N & ->)]; [auto|]. right. exists x. split; [exact N|apply app_assoc].
Qed.

Lemma near_nil m : near [] m -> m = [].
Proof.
  intros (m' & q1 & X & H). symmetry in X. apply app_eq_nil in X. destruct X as [-> ->].
  destruct H as [->|(x & N & _)]; [reflexivity|congruence].
Qed.

Lemma near_start q : near q [].
Proof. exists [], q. auto. Qed.

Lemma pfx_self (L : lang) m : L m -> pfx L m.
Proof. intros H. exists []. rewrite app_nil_r. exact H. Qed.

Lemma pfx_nil L : inhabited L -> pfx L [].
Proof. intros [s H]. exists s. exact H. Qed.

Lemma pfx_less L m m2 : pfx L (m ++ m2) -> pfx L m.
Proof. intros [s H]. exists (m2 ++ s). rewrite app_assoc. exact H. Qed.

Lemma pfx_impl (L L' : lang) m : (forall s, L s -> L' s) -> pfx L m -> pfx L' m.
Proof. intros H [s K]. exists s. auto. Qed.

Lemma pfx_cat_l L L' m : inhabited L' -> pfx L m -> pfx (cat L L') m.
Proof. intros [u K] [s H]. exists (s ++ u). rewrite app_assoc. constructor; assumption. Qed.

Lemma pfx_cat_r (L L' : lang) m m2 : L m -> pfx L' m2 -> pfx (cat L L') (m ++ m2).
Proof. intros H [s K]. exists s. rewrite <- app_assoc. constructor; assumption. Qed.

Lemma star_snoc L m m2 : star L m -> L m2 -> star L (m ++ m2).
Proof.
  intros H K. induction H as [|s u S _ IH]; cbn [app].
  - rewrite <- (app_nil_r m2). constructor; [exact K|constructor].
  - rewrite <- app_assoc. constructor; assumption.
Qed.

Lemma star_app L m m2 : star L m -> star L m2 -> star L (m ++ m2).
Proof.
  intros H K. induction H as [|s u S _ IH]; [exact K|]. rewrite <- app_assoc. constructor; assumption.
Qed.

Lemma star_one (L : lang) m : L m -> star L m.
Proof. intros H. rewrite <- (app_nil_r m). constructor; [exact H|constructor]. Qed.

Lemma star_impl (L L' : lang) m : (forall s, L s -> L' s) -> star L m -> star L' m.
Proof. intros H K. induction K; constructor; auto. Qed.

Lemma pfx_star L m m2 : star L m -> pfx L m2 -> pfx (star L) (m ++ m2).
Proof. intros H [s K]. exists s. rewrite <- app_assoc. apply star_snoc; assumption. Qed.

Section LaxCalc.
Variable t : text.
Variable V : text -> Prop.

#[local] Hint Extern 0 (env span) => exact (ErrAt.E t) : typeclass_instances.

Notation parser := (parser span).
Notation located := (located span).

(** The span starts where the text before can still become a document. *)
Definition fine (sp : span) : Prop := exists p, starts_after t sp p /\ V p.

(** The error, found where [P] was read and [q1] remains. *)
Definition good_err (P q1 : text) (e : perror span) : Prop :=
  Forall fine (perror_spans e)
  /\ (is_eoi_error e = true -> q1 = [] /\ V t)
  /\ match e with
     | EUnexpected lab sp found exp =>
         (forall k x, In k exp -> fits k x -> q1 <> [] -> V (P ++ [x]))
         /\ (lab = None -> sp_start sp = byte_len P /\ forall c, found = TChar c -> q1 <> [])
     | _ => True
     end.

Definition gl (l : located) : Prop :=
  exists P q1, t = P ++ q1 /\ l_rem l = List.length q1 /\ good_err P q1 (l_err l).

Definition glo (o : option located) : Prop :=
  match o with Some l => gl l | None => True end.

Definition ok_out {A} (Q : text -> text -> A -> Prop) (pre q : text) (o : outcome span A) : Prop :=
  match o with
  | Ok a rest alt => exists m q', q = m ++ q' /\ rest = toks_at (pre ++ m) q' /\ glo alt /\ Q m q' a
  | Err e => gl e
  end.

Definition ok_res {A} (Q : text -> text -> A -> Prop) (pre q : text) (r : presult span A) : Prop :=
  Forall gl (r_errs r) /\ ok_out Q pre q (r_out r).

(** The parser run after [pre] on [q]. *)
Definition at_ {A} (p : parser A) (pre q : text) (Q : text -> text -> A -> Prop) : Prop :=
  ok_res Q pre q (p (toks_at pre q)).

Definition anyq {A} : text -> text -> A -> Prop := fun _ _ _ => True.

Lemma at_weaken {A} (p : parser A) pre q (Q Q' : text -> text -> A -> Prop) :
  (forall m q' a, q = m ++ q' -> Q m q' a -> Q' m q' a) -> at_ p pre q Q -> at_ p pre q Q'.
Proof.
  intros HQ [H1 H2]. split; [exact H1|].
  destruct (r_out (p (toks_at pre q))) as [a rest alt|e]; [|exact H2].
  destruct H2 as (m & q' & X & Y & Z & W). exists m, q'. auto.
Qed.

Lemma at_drop {A} (p : parser A) pre q Q : at_ p pre q Q -> at_ p pre q anyq.
Proof. apply at_weaken. intros; exact I. Qed.

(** ** Errors *)

Lemma same_place P q1 P' q1' : t = P ++ q1 -> t = P' ++ q1' -> List.length q1 = List.length q1' ->
  P = P' /\ q1 = q1'.
Proof.
  intros H H' L.
  assert (List.length P = List.length P') as LP.
  { apply (f_equal (@List.length char)) in H, H'. rewrite app_length in H, H'. lia. }
  rewrite H' in H. apply app_eq_app in H. destruct H as (l & [[-> H]|[-> H]]).
  - rewrite app_length in LP. destruct l; [|cbn in LP; lia]. subst. rewrite app_nil_r. auto.
  - rewrite app_length in LP. destruct l; [|cbn in LP; lia]. subst. rewrite app_nil_r. auto.
Qed.

Lemma merge_good P q1 a b e : merge a b = Some e -> good_err P q1 a -> good_err P q1 b -> good_err P q1 e.
Proof.
  intros M A B. destruct a, b; cbn in M; inversion M; subst; try assumption.
  destruct A as (A1 & A2 & A3 & A4), B as (_ & _ & B3 & _).
  split; [exact A1|]. split; [exact A2|]. split; [|exact A4].
  intros k x K. apply extend_in in K. destruct K; eauto.
Qed.

Lemma lmax_ok a b e c : lmax a b = (e, c) -> gl a -> gl b -> gl e.
Proof.
  intros M A B. unfold lmax in M. destruct (Nat.compare_spec (l_rem a) (l_rem b)) as [R|R|R].
  - destruct (merge (l_err a) (l_err b)) as [x|] eqn:X; inversion M; subst; [|exact A].
    destruct A as (P & q1 & A1 & A2 & A3), B as (P' & q1' & B1 & B2 & B3).
    destruct (same_place P q1 P' q1' A1 B1) as [<- <-]; [congruence|].
    exists P, q1. split; [exact A1|]. split; [exact A2|]. eapply merge_good; eassumption.
  - inversion M; subst. exact A.
  - inversion M; subst. exact B.
Qed.

Lemma lmax_opt_ok a b e c : lmax_opt a b = (e, c) -> gl a -> glo b -> gl e.
Proof.
  intros M A B. destruct b as [b|]; cbn in M; [eapply lmax_ok; eassumption|].
  inversion M; subst. exact A.
Qed.

Lemma merge_alts_ok a b e c : merge_alts a b = (e, c) -> glo a -> glo b -> glo e.
Proof.
  intros M A B. destruct a as [a|], b as [b|]; cbn in M; try (inversion M; subst; assumption).
  destruct (lmax b a) as [m d] eqn:L. inversion M; subst. cbn. eapply lmax_ok; eassumption.
Qed.

Lemma merge_alts_list_ok l : Forall gl l -> forall a e c, merge_alts_list a l = (e, c) -> glo a -> glo e.
Proof.
  induction 1 as [|b l B _ IH]; intros a e c M A; cbn [merge_alts_list] in M.
  - inversion M; subst. exact A.
  - destruct (merge_alts a (Some b)) as [m d] eqn:X.
    destruct (merge_alts_list m l) as [m' d'] eqn:Y. inversion M; subst.
    eapply IH; [exact Y|]. eapply merge_alts_ok; [exact X|exact A|exact B].
Qed.

Lemma fine_at pre q sp : t = pre ++ q -> V pre -> sp_start sp = byte_len pre -> fine sp.
Proof. intros T H S. exists pre. split; [split; [exists q; exact T|exact S]|exact H]. Qed.

(** The error of a parser of one character, which may expect some. *)
Lemma unexpected_ok pre q x : t = pre ++ q -> V pre ->
  (forall c, In (Some c) x -> c <> 0x30%N -> q <> [] -> V (pre ++ [c])) ->
  gl (unexpected (toks_at pre q) x).
Proof.
  intros T H X. destruct q as [|c q].
  - exists pre, []. split; [exact T|]. split; [reflexivity|]. rewrite app_nil_r in T.
    split; [constructor; [|constructor]; apply (fine_at pre []); [rewrite app_nil_r; exact T|exact H|cbn; rewrite T; reflexivity]|].
    split; [intros _; split; [reflexivity|rewrite T; exact H]|].
    split; [intros k y _ _ N; congruence|]. intros _. split; [cbn; rewrite T; reflexivity|]. discriminate.
  - rewrite toks_cons. exists pre, (c :: q). split; [exact T|]. split; [cbn; rewrite toks_len; reflexivity|].
    split; [constructor; [|constructor]; apply (fine_at pre (c :: q)); [exact T|exact H|reflexivity]|].
    split; [discriminate|]. split.
    + intros k y K F N. apply extend_in in K. destruct K as [[]|K]. apply in_map_iff in K.
      destruct K as ([d|] & <- & K); cbn [token_of] in F; inversion F; subst. apply X; assumption.
    + intros _. split; [reflexivity|]. discriminate.
Qed.

(** An error that is shown before where it was found. *)
Lemma displaced pre m q e : t = pre ++ m ++ q -> V pre ->
  Forall (fun sp => sp_start sp = byte_len pre) (perror_spans e) -> is_eoi_error e = false ->
  match e with
  | EUnexpected lab _ _ exp => lab <> None /\ forall k x, In k exp -> fits k x -> False
  | _ => True
  end -> gl (Located (List.length q) e).
Proof.
  intros T H S Z M. exists (pre ++ m), q. split; [rewrite <- app_assoc; exact T|]. split; [reflexivity|].
  cbn [l_err]. split; [eapply Forall_impl; [|exact S]; intros sp X; apply (fine_at pre (m ++ q)); assumption|].
  split; [rewrite Z; discriminate|]. destruct e; try exact I. destruct M as [M1 M2].
  split; [intros k x K F; destruct (M2 k x K F)|]. intros ->. congruence.
Qed.

(** ** Combinators *)

Lemma at_fail {A} (Q : text -> text -> A -> Prop) pre q e : gl e -> ok_res Q pre q (fail e).
Proof. intros H. split; [constructor|exact H]. Qed.

Lemma at_one {A} (Q : text -> text -> A -> Prop) pre c q a : Q [c] q a ->
  ok_res Q pre (c :: q) (Res [] (Ok a (toks_at (pre ++ [c]) q) None) []).
Proof. intros H. split; [constructor|]. exists [c], q. cbn. auto. Qed.

Lemma at_filter f pre q : t = pre ++ q -> V pre ->
  at_ (p_filter f) pre q (fun m _ c => m = [c] /\ f c = true).
Proof.
  intros T H. unfold at_. destruct q as [|c q].
  - apply at_fail, unexpected_ok; [exact T|exact H|intros ? []].
  - rewrite toks_cons. cbn [p_filter]. destruct (f c) eqn:F.
    + apply at_one. auto.
    + rewrite <- toks_cons. apply at_fail, unexpected_ok; [exact T|exact H|intros ? []].
Qed.

Lemma at_just x pre q : t = pre ++ q -> V pre -> (x <> 0x30%N -> q <> [] -> V (pre ++ [x])) ->
  at_ (p_just x) pre q (fun m _ c => m = [x] /\ c = x).
Proof.
  intros T H K.
  assert (gl (unexpected (toks_at pre q) [Some x])) as G.
  { apply unexpected_ok; [exact T|exact H|]. intros c [[= <-]|[]]. exact K. }
  unfold at_. destruct q as [|c q].
  - apply at_fail, G.
  - rewrite toks_cons in *. cbn [p_just]. destruct (N.eqb_spec c x) as [->|F].
    + apply at_one. auto.
    + apply at_fail, G.
Qed.

Lemma at_just_str s : forall pre q, t = pre ++ q ->
  (forall m, near q m -> pfx (word s) m -> V (pre ++ m)) ->
  at_ (p_just_str s) pre q (fun m _ _ => m = s).
Proof.
  induction s as [|x s IH]; intros pre q T H; unfold at_; cbn [p_just_str].
  - split; [constructor|]. exists [], q. rewrite app_nil_r. cbn. auto.
  - assert (gl (unexpected (toks_at pre q) [Some x])) as G.
    { apply unexpected_ok; [exact T| |].
      - rewrite <- (app_nil_r pre). apply H; [apply near_start|]. exists (x :: s). reflexivity.
      - intros c [[= <-]|[]] _ N. destruct q as [|d q]; [congruence|].
        apply H; [exact (near_instead [] d q x)|]. exists s. reflexivity. }
    destruct q as [|c q].
    + apply at_fail, G.
    + rewrite toks_cons in *. destruct (N.eqb_spec c x) as [->|F]; [|apply at_fail, G].
      assert (T' : t = (pre ++ [x]) ++ q) by (rewrite <- app_assoc; exact T).
      destruct (IH (pre ++ [x]) q T') as [H1 H2].
      { intros m K W. rewrite <- app_assoc. apply H; [apply (near_app [x]), K|].
        destruct W as [u W]. exists u. cbn [app]. unfold word in *. rewrite <- W. reflexivity. }
      split; [exact H1|].
      destruct (r_out (p_just_str s (toks_at (pre ++ [x]) q))) as [a rest alt|e]; [|exact H2].
      destruct H2 as (m & q' & X & Y & Z & W). exists (x :: m), q'. subst m q rest.
      split; [reflexivity|]. split; [rewrite <- app_assoc; reflexivity|]. auto.
Qed.

Lemma at_end pre q : t = pre ++ q -> V pre -> at_ p_end pre q (fun m q' _ => m = [] /\ q' = []).
Proof.
  intros T H. unfold at_. destruct q as [|c q].
  - split; [constructor|]. exists [], []. cbn. auto.
  - assert (gl (unexpected (toks_at pre (c :: q)) [None])) as G.
    { apply unexpected_ok; [exact T|exact H|]. intros d [X|[]]. discriminate. }
    rewrite toks_cons in *. cbn [p_end]. apply at_fail, G.
Qed.

Lemma at_filter_map {A} (Q : text -> text -> A -> Prop) f pre q : t = pre ++ q -> V pre ->
  (forall c q', q = c :: q' -> match f (Span (byte_len pre) (byte_len (pre ++ [c]))) c with
     | inl a => Q [c] q' a
     | inr e => gl (Located (List.length q) e) end) ->
  at_ (p_filter_map f) pre q Q.
Proof.
  intros T H F. unfold at_. destruct q as [|c q].
  - apply at_fail, unexpected_ok; [exact T|exact H|intros ? []].
  - rewrite toks_cons. cbn [p_filter_map]. specialize (F _ _ eq_refl). destruct (f _ c) as [a|e].
    + apply at_one. exact F.
    + apply at_fail. rewrite <- toks_cons, toks_len. exact F.
Qed.

Lemma at_map {A B} (Q : text -> text -> A -> Prop) (Q' : text -> text -> B -> Prop) f p pre q :
  (forall m q' a, q = m ++ q' -> Q m q' a -> Q' m q' (f a)) -> at_ p pre q Q -> at_ (p_map f p) pre q Q'.
Proof.
  intros F [H1 H2]. unfold at_, p_map. split; [exact H1|].
  cbn [r_out]. destruct (r_out (p (toks_at pre q))) as [a rest alt|e]; [|exact H2].
  destruct H2 as (m & q' & X & Y & Z & W). exists m, q'. auto.
Qed.

Lemma at_map_with_span {A B} (Q : text -> text -> A -> Prop) (Q' : text -> text -> B -> Prop) f p pre q :
  (forall m q' a sp, q = m ++ q' -> sp_start sp = byte_len pre -> Q m q' a -> Q' m q' (f a sp)) ->
  t = pre ++ q -> at_ p pre q Q -> at_ (p_map_with_span f p) pre q Q'.
Proof.
  intros F T [H1 H2]. unfold at_, p_map_with_span. split; [exact H1|].
  cbn [r_out]. destruct (r_out (p (toks_at pre q))) as [a rest alt|e]; [|exact H2].
  destruct H2 as (m & q' & X & Y & Z & W). exists m, q'. repeat split; auto.
  apply F; auto. rewrite (since_eq t pre q _ T). reflexivity.
Qed.

Lemma at_map_err {A} (Q : text -> text -> A -> Prop) f (p : parser A) pre q :
  (forall e, r_out (p (toks_at pre q)) = Err e -> gl e -> gl (Located (l_rem e) (f (l_err e)))) ->
  at_ p pre q Q -> at_ (p_map_err f p) pre q Q.
Proof.
  intros F [H1 H2]. unfold at_, p_map_err. split; [exact H1|].
  cbn [r_out]. destruct (r_out (p (toks_at pre q))) as [a rest alt|e]; [exact H2|].
  apply F; [reflexivity|exact H2].
Qed.

Lemma at_map_err_with_span {A} (Q : text -> text -> A -> Prop) f (p : parser A) pre q :
  (forall e e', r_out (p (toks_at pre q)) = Err e -> gl e ->
     f (l_err e) (span_since (toks_at pre q) (l_rem e)) = Some e' -> gl (Located (l_rem e) e')) ->
  at_ p pre q Q -> at_ (p_map_err_with_span f p) pre q Q.
Proof.
  intros F [H1 H2]. unfold at_, p_map_err_with_span.
  destruct (r_out (p (toks_at pre q))) as [a rest alt|e] eqn:O.
  - split; [exact H1|]. rewrite O. exact H2.
  - destruct (f (l_err e) (span_since (toks_at pre q) (l_rem e))) as [e'|] eqn:X.
    + split; [exact H1|]. exact (F e e' eq_refl H2 X).
    + split; [exact H1|exact H2].
Qed.

(** What a callback says when it refuses. *)
Definition refusal (pre : text) (e : perror span) : Prop :=
  Forall (fun sp => sp_start sp = byte_len pre) (perror_spans e) /\ is_eoi_error e = false
  /\ match e with
     | EUnexpected lab _ _ exp => lab <> None /\ forall k x, In k exp -> fits k x -> False
     | _ => True
     end.

Lemma at_try_map {A B} (Q : text -> text -> A -> Prop) (Q' : text -> text -> B -> Prop) f p pre q :
  t = pre ++ q -> V pre ->
  (forall m q' a sp, q = m ++ q' -> Q m q' a -> sp_start sp = byte_len pre ->
     match f a sp with inl b => Q' m q' b | inr e => refusal pre e end) ->
  at_ p pre q Q -> at_ (p_try_map f p) pre q Q'.
Proof.
  intros T HV F [H1 H2]. unfold at_, p_try_map. split; [exact H1|].
  cbn [r_out]. destruct (r_out (p (toks_at pre q))) as [a rest alt|e]; [|exact H2].
  destruct H2 as (m & q' & X & Y & Z & W). rewrite (since_eq t pre _ _ T).
  match goal with |- context [f a ?s] => specialize (F m q' a s X W eq_refl) end.
  destruct (f a _) as [b|e].
  - exists m, q'. auto.
  - subst rest. rewrite toks_len. destruct F as (F1 & F2 & F3). subst q. apply (displaced pre m); assumption.
Qed.

Lemma at_validate {A B} (Q : text -> text -> A -> Prop) (Q' : text -> text -> B -> Prop) f p pre q :
  t = pre ++ q -> V pre ->
  (forall m q' a sp, q = m ++ q' -> Q m q' a -> sp_start sp = byte_len pre ->
     Q' m q' (fst (f a sp)) /\ match snd (f a sp) with None => True | Some e => refusal pre e end) ->
  at_ p pre q Q -> at_ (p_validate f p) pre q Q'.
Proof.
  intros T HV F [H1 H2]. unfold at_, p_validate.
  destruct (r_out (p (toks_at pre q))) as [a rest alt|e]; [|split; [exact H1|exact H2]].
  destruct H2 as (m & q' & X & Y & Z & W). rewrite (since_eq t pre _ _ T).
  match goal with |- context [f a ?s] => specialize (F m q' a s X W eq_refl) end.
  destruct (f a _) as [b o]. cbn [fst snd] in F. destruct F as [F1 F2]. split.
  - cbn. apply Forall_app. split; [exact H1|]. destruct o as [e|]; [|constructor].
    constructor; [|constructor]. subst rest. rewrite toks_len. destruct F2 as (G1 & G2 & G3). subst q.
    apply (displaced pre m); assumption.
  - exists m, q'. auto.
Qed.

Lemma at_bind {A B} (Q : text -> text -> A -> Prop) (Q' : text -> A -> text -> text -> B -> Prop) p (k : A -> parser B) pre q :
  t = pre ++ q -> at_ p pre q Q ->
  (forall m q' a, q = m ++ q' -> t = (pre ++ m) ++ q' -> Q m q' a -> at_ (k a) (pre ++ m) q' (Q' m a)) ->
  at_ (p_bind p k) pre q
    (fun m q2 ab => exists m1 m2, m = m1 ++ m2 /\ Q m1 (m2 ++ q2) (fst ab) /\ Q' m1 (fst ab) m2 q2 (snd ab)).
Proof.
  intros T [H1 H2] K. unfold at_, p_bind.
  destruct (r_out (p (toks_at pre q))) as [a rest alt|e]; [|split; [exact H1|exact H2]].
  destruct H2 as (m & q' & X & Y & Z & W). subst rest.
  assert (T' : t = (pre ++ m) ++ q') by (rewrite <- app_assoc, <- X; exact T).
  destruct (K m q' a X T' W) as [H3 H4].
  assert (Forall gl (r_errs (p (toks_at pre q)) ++ r_errs (k a (toks_at (pre ++ m) q')))) as G.
  { apply Forall_app. split; assumption. }
  destruct (r_out (k a (toks_at (pre ++ m) q'))) as [b rest alt2|e].
  - destruct H4 as (m2 & q2 & X2 & Y2 & Z2 & W2).
    destruct (merge_alts alt alt2) as [alt' c] eqn:M. split; [exact G|].
    exists (m ++ m2), q2. cbn [r_out]. split; [subst; rewrite <- app_assoc; reflexivity|].
    split; [subst; rewrite <- app_assoc; reflexivity|]. split.
    + eapply merge_alts_ok; eassumption.
    + exists m, m2. rewrite <- X2. auto.
  - destruct (lmax_opt e alt) as [e' c] eqn:M. split; [exact G|].
    cbn. eapply lmax_opt_ok; eassumption.
Qed.

Lemma at_or {A} (Q : text -> text -> A -> Prop) p p' pre q :
  at_ p pre q Q -> at_ p' pre q Q -> at_ (p_or p p') pre q Q.
Proof.
  intros [H1 H2] [K1 K2]. unfold at_.
  assert (forall o : outcome span A, ok_out Q pre q o -> glo (branch_alt o)) as B.
  { intros [a rest alt|e] H; cbn in *; [|exact H]. destruct H as (m & q' & _ & _ & H & _). exact H. }
  pose proof (B _ H2) as B1. pose proof (B _ K2) as B2.
  destruct (p_or_cases p p' (toks_at pre q)) as
    [(a & rest & alt & He & Ho & ->)
    |[_ [(a & rest & alt & alt' & c & Ho & He & M & ->)
        |[(a & rest & alt & alt' & c & Ho & M & ->)
         |(ea & eb & Ha & Hb & [[-> _]|[[-> _]|(e & c & M & Le & ->)]])]]]].
  - split; assumption.
  - split; [exact H1|]. rewrite Ho in H2. cbn [r_out].
    destruct H2 as (m & q' & X & Y & Z & W). exists m, q'. repeat split; auto.
    eapply merge_alts_ok; eassumption.
  - split; [exact K1|]. rewrite Ho in K2. cbn [r_out].
    destruct K2 as (m & q' & X & Y & Z & W). exists m, q'. repeat split; auto.
    eapply merge_alts_ok; eassumption.
  - rewrite Ha in H2. split; assumption.
  - rewrite Hb in K2. split; assumption.
  - rewrite Ha in H2. rewrite Hb in K2. split; [exact H1|]. cbn in *. eapply lmax_ok; eassumption.
Qed.

(** An alternative is tried when those before it failed. *)
Lemma at_choice_from {A} (Q : text -> text -> A -> Prop) ps pre q : forall alt,
  t = pre ++ q -> V pre -> glo alt ->
  (forall l p l', ps = l ++ p :: l' ->
     (forall p', In p' l -> exists e, r_out (p' (toks_at pre q)) = Err e) -> at_ p pre q Q) ->
  ok_res Q pre q (p_choice_from alt ps (toks_at pre q)).
Proof.
  induction ps as [|p ps IH]; intros alt T HV G P; cbn [p_choice_from].
  - destruct alt as [e|]; [apply at_fail; exact G|]. split; [constructor|].
    apply unexpected_ok; [exact T|exact HV|intros ? []].
  - destruct (P [] p ps eq_refl) as [H1 H2]; [intros ? []|].
    destruct (r_out (p (toks_at pre q))) as [a rest al|e] eqn:O; [split; [exact H1|rewrite O; exact H2]|].
    destruct (merge_alts alt (Some e)) as [alt' c] eqn:M.
    destruct (IH alt' T HV) as [K1 K2].
    + eapply merge_alts_ok; [exact M|exact G|exact H2].
    + intros l p' l' -> F. apply (P (p :: l) p' l' eq_refl). intros p2 [<-|I2]; [eauto|auto].
    + split; assumption.
Qed.

Lemma at_choice {A} (Q : text -> text -> A -> Prop) ps pre q : t = pre ++ q -> V pre ->
  (forall p, In p ps -> at_ p pre q Q) -> at_ (p_choice ps) pre q Q.
Proof.
  intros T HV P. apply at_choice_from; [exact T|exact HV|exact I|].
  intros l p l' -> _. apply P. apply in_or_app. right. left. reflexivity.
Qed.

Lemma at_or_not {A} (Q : text -> text -> option A -> Prop) (p : parser A) pre q :
  Q [] q None -> at_ p pre q (fun m q' a => Q m q' (Some a)) -> at_ (p_or_not p) pre q Q.
Proof.
  intros N [H1 H2]. unfold at_, p_or_not.
  destruct (r_out (p (toks_at pre q))) as [a rest alt|e].
  - split; [exact H1|]. destruct H2 as (m & q' & X & Y & Z & W). exists m, q'. auto.
  - split; [constructor|]. exists [], q. rewrite app_nil_r. auto.
Qed.

Lemma at_rewind {A} (Q : text -> text -> A -> Prop) (p : parser A) pre q :
  at_ p pre q (fun m q' a => Q [] q a) -> at_ (p_rewind p) pre q Q.
Proof.
  intros [H1 H2]. unfold at_, p_rewind. split; [exact H1|].
  cbn [r_out]. destruct (r_out (p (toks_at pre q))) as [a rest alt|e]; [|exact H2].
  destruct H2 as (m & q' & X & Y & Z & W). exists [], q. rewrite app_nil_r. auto.
Qed.

(** A loop keeps [J], which speaks of what was read so far and what remains. *)
Lemma repeat_loop_at {A} (J : list A -> text -> text -> Prop) (p : parser A) least most pre0 q0 :
  t = pre0 ++ q0 ->
  (forall outs ms q, q0 = ms ++ q -> t = (pre0 ++ ms) ++ q -> J outs ms q ->
     match most with Some k => List.length outs < k | None => True end ->
     at_ p (pre0 ++ ms) q (fun m q' a => J (outs ++ [a]) (ms ++ m) q')) ->
  forall fuel errs outs alt old cr ms q, q0 = ms ++ q -> Forall gl errs -> glo alt -> J (rev outs) ms q ->
  (fuel <> 0 \/ outs <> []) ->
  ok_res (fun m q' outs => J outs m q' /\ (least <= 1 -> most <> Some 0 -> least <= List.length outs)) pre0 q0
    (repeat_loop fuel p least most errs outs alt old cr (toks_at (pre0 ++ ms) q)).
Proof.
  intros T P. induction fuel as [|fuel IH]; intros errs outs alt old cr ms q X He Ha HJ Hf; cbn [repeat_loop].
  - split; [exact He|]. exists ms, q. rewrite rev_length. destruct outs; [destruct Hf; congruence|]. cbn [List.length].
    repeat split; auto. lia.
  - destruct (match most with Some m => m <=? List.length outs | None => false end) eqn:St.
    + split; [exact He|]. exists ms, q. rewrite rev_length. repeat split; auto.
      intros L1 M0. destruct most as [k|]; [|discriminate]. apply Nat.leb_le in St. destruct k; [congruence|lia].
    + assert (T' : t = (pre0 ++ ms) ++ q) by (rewrite <- app_assoc, <- X; exact T).
      destruct (P (rev outs) ms q X T' HJ) as [H1 H2].
      { destruct most as [k|]; [|exact I]. apply Nat.leb_gt in St. rewrite rev_length. exact St. }
      assert (Forall gl (errs ++ r_errs (p (toks_at (pre0 ++ ms) q)))) as G by (apply Forall_app; auto).
      destruct (r_out (p (toks_at (pre0 ++ ms) q))) as [a rest al|e].
      * destruct H2 as (m & q' & Y & Y2 & Z & W).
        destruct (merge_alts alt al) as [alt' c] eqn:M.
        assert (glo alt') as Ga by (eapply merge_alts_ok; eassumption).
        assert (X' : q0 = (ms ++ m) ++ q') by (rewrite <- app_assoc, <- Y; exact X).
        rewrite <- app_assoc in Y2.
        destruct (match old with Some o => o =? List.length rest | None => false end).
        -- split; [exact G|]. exists (ms ++ m), q'. repeat split; auto.
           rewrite rev_length. cbn [List.length]. lia.
        -- rewrite Y2. apply (IH _ (a :: outs) alt' _ _ (ms ++ m) q'); auto.
           right. discriminate.
      * destruct (Nat.ltb_spec (List.length outs) least) as [Lt|Ge].
        -- split; [exact G|exact H2].
        -- destruct (merge_alts alt (Some e)) as [alt' c] eqn:M. split; [exact He|].
           exists ms, q. cbn [r_out]. rewrite rev_length. repeat split; auto.
           eapply merge_alts_ok; [exact M|exact Ha|exact H2].
Qed.

Lemma at_repeat {A} (J : list A -> text -> text -> Prop) (p : parser A) least most pre q :
  t = pre ++ q -> J [] [] q ->
  (forall outs ms q', q = ms ++ q' -> t = (pre ++ ms) ++ q' -> J outs ms q' ->
     match most with Some k => List.length outs < k | None => True end ->
     at_ p (pre ++ ms) q' (fun m q'' a => J (outs ++ [a]) (ms ++ m) q'')) ->
  at_ (p_repeat least most p) pre q
    (fun m q' outs => J outs m q' /\ (least <= 1 -> most <> Some 0 -> least <= List.length outs)).
Proof.
  intros T J0 P. unfold at_, p_repeat. replace (toks_at pre q) with (toks_at (pre ++ []) q) at 2 by (rewrite app_nil_r; reflexivity).
  apply repeat_loop_at; auto; [exact I|left; discriminate].
Qed.

Lemma until_loop_at {A} (J : text -> text -> Prop) (Q : text -> text -> list char * A -> Prop) (p : parser A) pre0 q0 :
  t = pre0 ++ q0 ->
  (forall ms q, q0 = ms ++ q -> t = (pre0 ++ ms) ++ q -> J ms q ->
     at_ p (pre0 ++ ms) q (fun m q' a => Q (ms ++ m) q' (ms, a))
     /\ forall c q', q = c :: q' -> failed (p (toks_at (pre0 ++ ms) q)) -> J (ms ++ [c]) q') ->
  forall q ms alt cr, q0 = ms ++ q -> J ms q -> glo alt ->
  ok_res Q pre0 q0 (until_loop p alt (rev ms) cr (toks_at (pre0 ++ ms) q)).
Proof.
  intros T P. induction q as [|c q IH]; intros ms alt cr X HJ Ha.
  - assert (T' : t = (pre0 ++ ms) ++ []) by (rewrite <- app_assoc, <- X; exact T).
    destruct (P ms [] X T' HJ) as [[H1 H2] _].
    change (toks_at (pre0 ++ ms) []) with (@nil (tok span)) in *. cbn [until_loop].
    destruct (r_out (p [])) as [a rest al|e]; [|split; [exact H1|exact H2]].
    destruct (merge_alts alt al) as [alt' k] eqn:M. split; [exact H1|].
    destruct H2 as (m2 & q' & Y & Y2 & Z & W). exists (ms ++ m2), q'.
    split; [rewrite X, <- app_assoc, <- Y; reflexivity|]. split; [rewrite app_assoc; exact Y2|].
    split; [eapply merge_alts_ok; eassumption|]. rewrite rev_involutive. exact W.
  - assert (T' : t = (pre0 ++ ms) ++ c :: q) by (rewrite <- app_assoc, <- X; exact T).
    destruct (P ms (c :: q) X T' HJ) as [[H1 H2] H3]. specialize (H3 c q eq_refl).
    rewrite toks_cons in *. cbn [until_loop].
    match goal with H : ok_out _ _ _ (r_out ?r) |- _ => destruct (r_out r) as [a rest al|e] eqn:O end.
    + destruct (merge_alts alt al) as [alt' k] eqn:M. split; [exact H1|].
      destruct H2 as (m2 & q' & Y & Y2 & Z & W). exists (ms ++ m2), q'.
      split; [rewrite X, <- app_assoc, <- Y; reflexivity|]. split; [rewrite app_assoc; exact Y2|].
      split; [eapply merge_alts_ok; eassumption|]. rewrite rev_involutive. exact W.
    + destruct (merge_alts alt (Some e)) as [alt' k] eqn:M.
      rewrite <- app_assoc. specialize (IH (ms ++ [c]) alt').
      rewrite rev_app_distr in IH. cbn [rev app] in IH. apply IH.
      * rewrite <- app_assoc. exact X.
      * apply H3. exists e. exact O.
      * eapply merge_alts_ok; [exact M|exact Ha|exact H2].
Qed.

Lemma at_take_until {A} (J : text -> text -> Prop) (Q : text -> text -> list char * A -> Prop) (p : parser A) pre q :
  t = pre ++ q -> J [] q ->
  (forall ms q', q = ms ++ q' -> t = (pre ++ ms) ++ q' -> J ms q' ->
     at_ p (pre ++ ms) q' (fun m q'' a => Q (ms ++ m) q'' (ms, a))
     /\ forall c q'', q' = c :: q'' -> failed (p (toks_at (pre ++ ms) q')) -> J (ms ++ [c]) q'') ->
  at_ (p_take_until p) pre q Q.
Proof.
  intros T J0 P. unfold at_, p_take_until.
  replace (toks_at pre q) with (toks_at (pre ++ []) q) by (rewrite app_nil_r; reflexivity).
  apply (until_loop_at J Q p pre q T P q [] None []); auto. exact I.
Qed.

Lemma skip_to_at f q : forall pre rest, skip_to f (toks_at pre q) = Some rest ->
  exists m q', q = m ++ q' /\ rest = toks_at (pre ++ m) q' /\ Forall (fun c => f c = false) m.
Proof.
  induction q as [|c q IH]; intros pre rest H; [discriminate|]. rewrite toks_cons in H.
  cbn [skip_to] in H. destruct (f c) eqn:F.
  - injection H as <-. exists [], (c :: q). rewrite app_nil_r, toks_cons. auto.
  - apply IH in H. destruct H as (m & q' & -> & -> & K). exists (c :: m), q'. rewrite <- app_assoc. auto.
Qed.

Lemma at_recover {A} (Q : text -> text -> A -> Prop) f (x : A) p pre q :
  (forall m q', q = m ++ q' -> Forall (fun c => f c = false) m -> Q m q' x) ->
  at_ p pre q Q -> at_ (p_recover_skip_until f x p) pre q Q.
Proof.
  intros F [H1 H2]. unfold at_, p_recover_skip_until.
  destruct (r_out (p (toks_at pre q))) as [a rest alt|e] eqn:O;
    [split; [exact H1|rewrite O; exact H2]|].
  destruct (skip_to f (toks_at pre q)) as [rest|] eqn:S.
  - apply skip_to_at in S. destruct S as (m & q' & X & -> & S). split.
    + cbn. apply Forall_app. split; [exact H1|]. constructor; [exact H2|constructor].
    + exists m, q'. cbn. auto.
  - split; [exact H1|]. rewrite O. exact H2.
Qed.

(** A parser that reports nothing and cannot panic gives what the calculus of
    Good.v speaks of. *)
Lemma at_good {A} (Q : text -> text -> A -> Prop) (p : parser A) pre q : quiet p -> Safe p ->
  at_ p pre q Q ->
  at_ p pre q (fun m q' a => Q m q' a /\ good (p (toks_at pre q)) a (toks_at (pre ++ m) q')).
Proof.
  intros Qt Sf [H1 H2]. split; [exact H1|].
  destruct (r_out (p (toks_at pre q))) as [a rest alt|e] eqn:O; [|exact H2].
  destruct H2 as (m & q' & X & Y & Z & W). exists m, q'. split; [exact X|]. split; [exact Y|]. split; [exact Z|].
  split; [exact W|]. split; [split; [apply Qt|]|exact (proj1 (Sf _ (toks_at pre q) (le_n _)))].
  exists alt. rewrite O, Y. reflexivity.
Qed.

Lemma at_sound {A} (R : text -> A -> Prop) (Q : text -> text -> A -> Prop) (p : parser A) pre q :
  quiet p -> Safe p ->
  (forall ts a rest, good (p ts) a rest -> exists s, ts = s ++ rest /\ R (Kdl.chars s) a) ->
  at_ p pre q Q -> at_ p pre q (fun m q' a => Q m q' a /\ R m a).
Proof.
  intros Qt Sf G H. apply (at_good _ _ _ _ Qt Sf) in H. eapply at_weaken; [|exact H].
  intros m q' a X [K Y]. split; [exact K|]. apply G in Y. destruct Y as (s & S1 & S2).
  subst q. rewrite toks_app in S1. apply app_inv_tail in S1. subst s. rewrite chars_toks in S2. exact S2.
Qed.

(** ** Languages *)

(** What was read is in the language, or can be made so if nothing remains. *)
Definition K (L : lang) (m q : text) : Prop := pfx L m /\ (q <> [] -> L m).

Definition room (L : lang) (pre q : text) : Prop := forall m, pfx L m -> near q m -> V (pre ++ m).

Definition okv {A} (L : lang) (p : parser A) : Prop :=
  inhabited L /\ forall pre q, t = pre ++ q -> room L pre q -> at_ p pre q (fun m q' _ => K L m q').

Lemma K_full (L : lang) m q : L m -> K L m q.
Proof. intros H. split; [apply pfx_self; exact H|auto]. Qed.

Lemma K_impl (L L' : lang) m q : (forall s, L s -> L' s) -> K L m q -> K L' m q.
Proof. intros H [H1 H2]. split; [eapply pfx_impl; eassumption|auto]. Qed.

Lemma room_less (L L' : lang) pre q : (forall s, L s -> L' s) -> room L' pre q -> room L pre q.
Proof. intros H R m P. apply R. eapply pfx_impl; eassumption. Qed.

Lemma room_here L pre q : inhabited L -> room L pre q -> V pre.
Proof. intros H R. rewrite <- (app_nil_r pre). apply R; [apply pfx_nil, H|apply near_start]. Qed.

Lemma room_read L pre m q : room L pre (m ++ q) -> pfx L m -> V (pre ++ m).
Proof. intros R P. apply R; [exact P|apply near_prefix]. Qed.

(** After a part of the text was read. *)
Lemma room_after (La Lb L : lang) pre ms q : inhabited Lb ->
  (forall a b, La a -> Lb b -> L (a ++ b)) -> K La ms q -> room L pre (ms ++ q) -> room Lb (pre ++ ms) q.
Proof.
  intros [b0 B0] H [[s P] F] R m [u M] N. rewrite <- app_assoc. apply R; [|apply near_app, N].
  destruct q as [|c q].
  - apply near_nil in N. subst m. rewrite app_nil_r. exists (s ++ b0). rewrite app_assoc. apply H; assumption.
  - exists u. rewrite <- app_assoc. apply H; [|exact M]. apply F. discriminate.
Qed.

Lemma K_after (La Lb L : lang) ms m q : inhabited Lb ->
  (forall a b, La a -> Lb b -> L (a ++ b)) -> K La ms (m ++ q) -> K Lb m q -> K L (ms ++ m) q.
Proof.
  intros [b0 B0] H [[s P] F] [[u M] G]. split.
  - destruct (m ++ q) as [|c r] eqn:X.
    + apply app_eq_nil in X. destruct X as [-> _]. rewrite app_nil_r. exists (s ++ b0).
      rewrite app_assoc. apply H; assumption.
    + exists u. rewrite <- app_assoc. apply H; [|exact M]. apply F. discriminate.
  - intros N. apply H; [|auto]. apply F. intros X. apply app_eq_nil in X. tauto.
Qed.

Lemma okv_step {A} (La Lb L : lang) (p : parser A) pre ms q : okv Lb p ->
  (forall a b, La a -> Lb b -> L (a ++ b)) -> t = (pre ++ ms) ++ q -> K La ms q -> room L pre (ms ++ q) ->
  at_ p (pre ++ ms) q (fun m q' _ => K L (ms ++ m) q').
Proof.
  intros [I P] H T HK R.
  eapply at_weaken; [|apply (P (pre ++ ms) q T); eapply room_after; eassumption].
  intros m q' a -> X. eapply K_after; eassumption.
Qed.

Lemma okv_weaken {A} (L L' : lang) (p : parser A) : (forall s, L s -> L' s) -> okv L p -> okv L' p.
Proof.
  intros H [[s I] P]. split; [exists s; auto|]. intros pre q T R.
  eapply at_weaken; [|apply P; [exact T|eapply room_less; eassumption]].
  intros m q' a _. apply K_impl, H.
Qed.

Lemma okv_map {A B} L (f : A -> B) (p : parser A) : okv L p -> okv L (p_map f p).
Proof. intros [I P]. split; [exact I|]. intros pre q T R. eapply at_map; [|apply P; assumption]. auto. Qed.

Lemma okv_ignored {A} L (p : parser A) : okv L p -> okv L (p_ignored p).
Proof. apply okv_map. Qed.

Lemma okv_spanned {A} L (p : parser A) : okv L p -> okv L (p_spanned p).
Proof.
  intros [I P]. split; [exact I|]. intros pre q T R. eapply at_map_with_span; [|exact T|apply P; assumption]. auto.
Qed.

Lemma okv_filter (P : char -> Prop) f : (exists c, P c) -> (forall c, f c = true -> P c) ->
  okv (one_of P) (p_filter f).
Proof.
  intros [c0 C] F. assert (inhabited (one_of P)) as I by (exists [c0], c0; auto).
  split; [exact I|]. intros pre q T R.
  eapply at_weaken; [|apply at_filter; [exact T|eapply room_here; eassumption]].
  intros m q' c _ [-> X]. apply K_full. exists c. auto.
Qed.

Lemma okv_just x : okv (word [x]) (p_just x).
Proof.
  assert (inhabited (word [x])) as I by (exists [x]; reflexivity). split; [exact I|]. intros pre q T R.
  eapply at_weaken; [|apply at_just; [exact T|eapply room_here; eassumption|]].
  - intros m q' c _ [-> _]. apply K_full. reflexivity.
  - intros _ N. destruct q as [|c q]; [congruence|]. apply R; [exists []; reflexivity|].
    exact (near_instead [] c q x).
Qed.

Lemma okv_just_str s : okv (word s) (p_just_str s).
Proof.
  split; [exists s; reflexivity|]. intros pre q T R.
  eapply at_weaken; [|apply at_just_str; [exact T|]].
  - intros m q' a _ ->. apply K_full. reflexivity.
  - intros m N P. apply R; assumption.
Qed.

Lemma okv_bind {A B} L1 L2 (p : parser A) (k : A -> parser B) :
  okv L1 p -> (forall a, okv L2 (k a)) -> inhabited L2 -> okv (cat L1 L2) (p_bind p k).
Proof.
  intros P P2 I2. pose proof P as [[s1 S1] P1]. pose proof I2 as [s2 S2].
  split; [exists (s1 ++ s2); constructor; assumption|]. intros pre q T R.
  eapply at_weaken; [|apply (at_bind (fun m q' _ => K L1 m q') (fun m1 _ m q' _ => K (cat L1 L2) (m1 ++ m) q') p k pre q T)].
  - intros m q' ab _ (m1 & m2 & -> & _ & H). exact H.
  - apply P1; [exact T|]. intros m M. apply R. apply pfx_cat_l; [exists s2; exact S2|exact M].
  - intros m q' a X T' HK. eapply okv_step with (La := L1); [apply P2| |exact T'|exact HK|rewrite <- X; exact R].
    intros a1 b1. apply Cat.
Qed.

Lemma okv_then {A B} L1 L2 (p : parser A) (p' : parser B) : okv L1 p -> okv L2 p' ->
  okv (cat L1 L2) (p_then p p').
Proof. intros P P'. apply okv_bind; [exact P|intros _; exact P'|exact (proj1 P')]. Qed.

Lemma okv_ignore_then {A B} L1 L2 (p : parser A) (p' : parser B) : okv L1 p -> okv L2 p' ->
  okv (cat L1 L2) (p_ignore_then p p').
Proof. intros P P'. apply okv_map, okv_then; assumption. Qed.

Lemma okv_then_ignore {A B} L1 L2 (p : parser A) (p' : parser B) : okv L1 p -> okv L2 p' ->
  okv (cat L1 L2) (p_then_ignore p p').
Proof. intros P P'. apply okv_map, okv_then; assumption. Qed.

Lemma okv_or {A} L (p p' : parser A) : okv L p -> okv L p' -> okv L (p_or p p').
Proof. intros [I P] [_ P']. split; [exact I|]. intros pre q T R. apply at_or; auto. Qed.

Lemma okv_alt {A} L1 L2 (p p' : parser A) : okv L1 p -> okv L2 p' -> okv (alt L1 L2) (p_or p p').
Proof.
  intros P P'. apply okv_or; [eapply okv_weaken; [|exact P]; apply Alt_l|eapply okv_weaken; [|exact P']; apply Alt_r].
Qed.

Lemma okv_choice {A} L (ps : list (parser A)) : inhabited L -> (forall p, In p ps -> okv L p) -> okv L (p_choice ps).
Proof.
  intros I P. split; [exact I|]. intros pre q T R. apply at_choice; [exact T|eapply room_here; eassumption|].
  intros p Hp. apply P; assumption.
Qed.

Lemma okv_or_not {A} L (p : parser A) : okv L p -> okv (opt L) (p_or_not p).
Proof.
  intros [I P]. split; [exists []; constructor|]. intros pre q T R. apply at_or_not.
  - apply K_full. constructor.
  - eapply at_weaken; [|apply P; [exact T|]].
    + intros m q' a _. apply K_impl. apply Opt_some.
    + eapply room_less; [apply Opt_some|exact R].
Qed.

Lemma plus_snoc L m m2 : plus L m -> L m2 -> plus L (m ++ m2).
Proof. intros [a b A B] H. rewrite <- app_assoc. constructor; [exact A|]. apply star_snoc; assumption. Qed.

Lemma plus_one (L : lang) m : L m -> plus L m.
Proof. intros H. rewrite <- (app_nil_r m). constructor; [exact H|constructor]. Qed.

Lemma plus_star L m : plus L m -> star L m.
Proof. intros [a b A B]. constructor; assumption. Qed.

Lemma okv_repeat {A} L least most (p : parser A) : okv L p -> okv (star L) (p_repeat least most p).
Proof.
  intros P. split; [exists []; constructor|]. intros pre q T R.
  eapply at_weaken; [|apply (at_repeat (fun _ m q' => K (star L) m q') p least most pre q T)].
  - intros m q' a _ [H _]. exact H.
  - apply K_full. constructor.
  - intros outs ms q' X T' HK _. eapply okv_step; [exact P|apply star_snoc|exact T'|exact HK|rewrite <- X; exact R].
Qed.

Lemma okv_repeat1 {A} L (p : parser A) : okv L p -> okv (plus L) (p_repeat 1 None p).
Proof.
  intros P. pose proof P as [[s0 S0] P1]. split; [exists s0; apply plus_one, S0|]. intros pre q T R.
  eapply at_weaken; [|apply (at_repeat (fun outs m q' => (outs = [] /\ m = []) \/ (outs <> [] /\ K (plus L) m q'))
                               p 1 None pre q T)].
  - intros m q' a _ [[[-> _]|[_ H]] L1]; [|exact H]. exfalso. cbn in L1. specialize (L1 (le_n _)).
    assert (@None nat <> Some 0) as N by discriminate. specialize (L1 N). lia.
  - left. auto.
  - intros outs ms q' X T' HJ _. destruct HJ as [[-> ->]|[N HK]].
    + cbn [app] in X. subst q'. rewrite app_nil_r in *.
      eapply at_weaken; [|apply P1; [exact T|]].
      * intros m q' a _ H. right. split; [discriminate|]. eapply K_impl; [|exact H]. apply plus_one.
      * eapply room_less; [apply plus_one|exact R].
    + eapply at_weaken; [|eapply okv_step; [exact P|apply plus_snoc|exact T'|exact HK|rewrite <- X; exact R]].
      intros m q'' a _ H. right. split; [destruct outs; discriminate|exact H].
Qed.

(** Errors that lose what they expect. *)
Definition tame (f : perror span -> perror span) : Prop := forall e,
  match e with
  | EUnexpected lab sp found exp => exists exp', f e = EUnexpected lab sp found exp'
      /\ forall k x, In k exp' -> fits k x -> False
  | _ => f e = e
  end.

Lemma okv_tame {A} L f (p : parser A) : tame f -> okv L p -> okv L (p_map_err f p).
Proof.
  intros F [I P]. split; [exact I|]. intros pre q T R. apply at_map_err; [|apply P; assumption].
  intros e _ (Q & q1 & G1 & G2 & G3). exists Q, q1. split; [exact G1|]. split; [exact G2|]. cbn [l_err].
  specialize (F (l_err e)). destruct (l_err e) as [lab sp found exp| | |]; try (rewrite F; exact G3).
  destruct F as (exp' & -> & F). destruct G3 as (H1 & H2 & H3 & H4).
  split; [exact H1|]. split; [exact H2|]. split; [|exact H4]. intros k x X Y. destruct (F k x X Y).
Qed.

(** ** Lists with separators *)

Lemma sep_or_not_at {B} (LD L : lang) (d : parser B) pre0 q0 : okv LD d ->
  (forall a b, L a -> LD b -> L (a ++ b)) -> t = pre0 ++ q0 -> room L pre0 q0 ->
  forall ms q alt alt' rest c, q0 = ms ++ q -> K L ms q -> glo alt ->
  sep_or_not d alt (toks_at (pre0 ++ ms) q) = (alt', rest, c) ->
  glo alt' /\ exists m q', q = m ++ q' /\ rest = toks_at (pre0 ++ ms ++ m) q' /\ K L (ms ++ m) q'.
Proof.
  intros D HD T R ms q alt alt' rest c X HK Ha S.
  assert (T' : t = (pre0 ++ ms) ++ q) by (rewrite <- app_assoc, <- X; exact T).
  destruct (okv_step L LD L d pre0 ms q D HD T' HK) as [H1 H2]; [rewrite <- X; exact R|].
  unfold sep_or_not in S.
  destruct (r_out (d (toks_at (pre0 ++ ms) q))) as [a r al|e].
  - destruct (merge_alts_list al _) as [n k] eqn:M1. destruct (merge_alts alt n) as [n' k'] eqn:M2.
    injection S as <- <- _. destruct H2 as (m & q' & Y & Y2 & Z & W). split.
    + eapply merge_alts_ok; [exact M2|exact Ha|]. eapply merge_alts_list_ok; [exact H1|exact M1|exact Z].
    + exists m, q'. rewrite app_assoc. auto.
  - destruct (merge_alts_list (Some e) _) as [n k] eqn:M1. destruct (merge_alts alt n) as [n' k'] eqn:M2.
    injection S as <- <- _. split.
    + eapply merge_alts_ok; [exact M2|exact Ha|]. eapply merge_alts_list_ok; [exact H1|exact M1|exact H2].
    + exists [], q. rewrite !app_nil_r. auto.
Qed.

Lemma sep_loop_at {A B} (LI LD L : lang) (p : parser A) (d : parser B) pre0 q0 : okv LI p -> okv LD d ->
  (forall a b, L a -> LI b -> L (a ++ b)) -> (forall a b, L a -> LD b -> L (a ++ b)) ->
  t = pre0 ++ q0 -> room L pre0 q0 ->
  forall fuel errs outs alt cr ms q, q0 = ms ++ q -> K L ms q -> Forall gl errs -> glo alt ->
  forall errs' outs' alt' rest e' c,
  sep_loop fuel p d errs outs alt cr (toks_at (pre0 ++ ms) q) = (errs', outs', alt', rest, e', c) ->
  Forall gl errs' /\ glo alt' /\ glo e'
  /\ exists m q', q = m ++ q' /\ rest = toks_at (pre0 ++ ms ++ m) q' /\ K L (ms ++ m) q'.
Proof.
  intros P D HI HD T R. induction fuel as [|fuel IH]; intros errs outs alt cr ms q X HK He Ha errs' outs' alt' rest e' c S;
    cbn [sep_loop] in S.
  - injection S as <- <- <- <- <- _. split; [exact He|]. split; [exact Ha|]. split; [exact I|].
    exists [], q. rewrite !app_nil_r. auto.
  - assert (T' : t = (pre0 ++ ms) ++ q) by (rewrite <- app_assoc, <- X; exact T).
    destruct (okv_step L LD L d pre0 ms q D HD T' HK) as [H1 H2]; [rewrite <- X; exact R|].
    destruct (r_out (d (toks_at (pre0 ++ ms) q))) as [a r al|e].
    + destruct (merge_alts alt al) as [alt1 c1] eqn:M1.
      destruct H2 as (m & q' & Y & Y2 & Z & W). rewrite <- app_assoc in Y2. subst r.
      assert (X2 : q0 = (ms ++ m) ++ q') by (rewrite <- app_assoc, <- Y; exact X).
      assert (T2 : t = (pre0 ++ ms ++ m) ++ q') by (rewrite <- app_assoc, <- X2; exact T).
      destruct (okv_step L LI L p pre0 (ms ++ m) q' P HI T2 W) as [K1 K2]; [rewrite <- X2; exact R|].
      assert (glo alt1) as Ga1 by (eapply merge_alts_ok; eassumption).
      assert (Forall gl (errs ++ r_errs (d (toks_at (pre0 ++ ms) q)) ++ r_errs (p (toks_at (pre0 ++ ms ++ m) q')))) as G.
      { apply Forall_app. split; [exact He|]. apply Forall_app. auto. }
      destruct (r_out (p (toks_at (pre0 ++ ms ++ m) q'))) as [b r i_alt|e].
      * destruct (merge_alts alt1 i_alt) as [alt2 c2] eqn:M2.
        destruct K2 as (m2 & q2 & Y3 & Y4 & Z2 & W2). rewrite <- !app_assoc in Y4. rewrite <- app_assoc in W2. subst r.
        assert (X3 : q0 = (ms ++ m ++ m2) ++ q2) by (rewrite X2, Y3, <- !app_assoc; reflexivity).
        assert (glo alt2) as Ga2 by (eapply merge_alts_ok; eassumption).
        destruct (IH _ _ _ _ (ms ++ m ++ m2) q2 X3 W2 G Ga2 _ _ _ _ _ _ S) as (R1 & R2 & R3 & m3 & q3 & R4 & R5 & R6).
        split; [exact R1|]. split; [exact R2|]. split; [exact R3|].
        exists (m ++ m2 ++ m3), q3. rewrite <- !app_assoc in R5, R6.
        split; [rewrite Y, Y3, R4, <- !app_assoc; reflexivity|]. auto.
      * injection S as <- <- <- <- <- _. split; [exact G|]. split; [exact Ga1|].
        split; [exact K2|]. exists [], q. rewrite !app_nil_r. auto.
    + injection S as <- <- <- <- <- _. split; [apply Forall_app; auto|]. split; [exact Ha|].
      split; [exact H2|]. exists [], q. rewrite !app_nil_r. auto.
Qed.

Lemma okv_separated {A B} (LI LD L : lang) (p : parser A) (d : parser B) : okv LI p -> okv LD d ->
  L [] -> (forall a b, L a -> LI b -> L (a ++ b)) -> (forall a b, L a -> LD b -> L (a ++ b)) ->
  okv L (p_separated p d).
Proof.
  intros P D L0 HI HD. split; [exists []; exact L0|]. intros pre q T R. unfold at_, p_separated.
  destruct (sep_or_not d None (toks_at pre q)) as [[alt0 ts0] c0] eqn:S0.
  assert (S0' : sep_or_not d None (toks_at (pre ++ []) q) = (alt0, ts0, c0)) by (rewrite app_nil_r; exact S0).
  destruct (sep_or_not_at LD L d pre q D HD T R [] q None _ _ _ eq_refl (K_full L [] q L0) I S0')
    as (Ga0 & m & q' & X & -> & HK). cbn [app] in *.
  assert (T' : t = (pre ++ m) ++ q') by (rewrite <- app_assoc, <- X; exact T).
  destruct (okv_step L LI L p pre m q' P HI T' HK) as [K1 K2]; [rewrite <- X; exact R|].
  destruct (r_out (p (toks_at (pre ++ m) q'))) as [a r al|e].
  - destruct K2 as (m2 & q2 & X2 & Y2 & Z2 & W2). rewrite <- app_assoc in Y2. subst r.
    destruct (merge_alts alt0 al) as [alt1 c1] eqn:M1.
    assert (glo alt1) as Ga1 by (eapply merge_alts_ok; eassumption).
    assert (X3 : q = (m ++ m2) ++ q2) by (rewrite X, X2, app_assoc; reflexivity).
    destruct (sep_loop _ p d _ [a] alt1 _ _) as [[[[[errs outs] alt2] ts2] err] c2] eqn:SL.
    destruct (sep_loop_at LI LD L p d pre q P D HI HD T R _ _ _ _ _ (m ++ m2) q2 X3 W2 K1 Ga1 _ _ _ _ _ _ SL)
      as (R1 & R2 & R3 & m3 & q3 & R4 & -> & R5).
    assert (X4 : q = ((m ++ m2) ++ m3) ++ q3) by (rewrite X3, R4, app_assoc; reflexivity).
    destruct (sep_or_not d alt2 _) as [[alt3 ts3] c3] eqn:S3.
    destruct (sep_or_not_at LD L d pre q D HD T R _ q3 alt2 _ _ _ X4 R5 R2 S3) as (Ga3 & m4 & q4 & R6 & -> & R7).
    destruct (merge_alts alt3 err) as [alt4 c4] eqn:M4. split; [exact R1|].
    exists (((m ++ m2) ++ m3) ++ m4), q4. split; [|split; [reflexivity|split; [eapply merge_alts_ok; eassumption|exact R7]]].
    rewrite X4, R6, <- !app_assoc. reflexivity.
  - destruct (merge_alts alt0 (Some e)) as [alt1 c1] eqn:M1. split; [exact K1|].
    exists m, q'. split; [exact X|]. split; [reflexivity|]. split; [|exact HK].
    eapply merge_alts_ok; [exact M1|exact Ga0|exact K2].
Qed.

End LaxCalc.
