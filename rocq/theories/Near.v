(** How far errors can lie from the place where a parser stops.

    [rej f p]: on an input that does not start with a character of class [f],
    [p] fails on the spot.  [near k F p]: when [p] succeeds and what follows
    satisfies [F], the alternative error it leaves is at most [k] tokens beyond
    the place reached.  [enear k F p]: when [p] fails on an input that satisfies
    [F], the error is at most [k] tokens beyond the start. *)

From Coq Require Import NArith PeanoNat List Bool String Lia.
From Verif Require Import Chars Ast Errors Chumsky Spans Grammar Safe GrammarSafe.
Import ListNotations.
Local Open Scope list_scope.

Section Near.
Context {Sp : Type} {E : env Sp}.

Notation parser := (parser Sp).
Notation toks := (toks Sp).
Notation located := (located Sp).
Notation len := (@List.length (tok Sp)).

Definition hd (f : char -> bool) (ts : toks) : bool :=
  match ts with [] => false | (c, _) :: _ => f c end.

Definition rej {A} (f : char -> bool) (p : parser A) : Prop :=
  forall ts, hd f ts = false ->
  exists e, p ts = Res [] (Err (Located (len ts) e)) [] /\ mergeable e.

Definition within (k : nat) (rest : toks) (o : option located) : Prop :=
  match o with Some e => len rest <= l_rem e + k | None => True end.

Definition near {A} (k : nat) (F : toks -> Prop) (p : parser A) : Prop :=
  forall ts a rest alt, r_out (p ts) = Ok a rest alt -> F rest -> within k rest alt.

Definition enear {A} (k : nat) (F : toks -> Prop) (p : parser A) : Prop :=
  forall ts e, r_out (p ts) = Err e -> F ts -> len ts <= l_rem e + k.

Definition anyp : toks -> Prop := fun _ => True.

(** ** Shapes of results *)

Lemma bind_ok {A B} (p : parser A) (q : A -> parser B) ts x rest alt :
  r_out (p_bind p q ts) = Ok x rest alt ->
  exists a b r1 alt1 alt2 c, r_out (p ts) = Ok a r1 alt1
    /\ r_out (q a r1) = Ok b rest alt2 /\ merge_alts alt1 alt2 = (alt, c)
    /\ x = (a, b).
Proof.
  unfold p_bind. destruct (r_out (p ts)) as [a r1 alt1|e] eqn:P; [|discriminate].
  destruct (r_out (q a r1)) as [b r2 alt2|e] eqn:Q.
  - destruct (merge_alts alt1 alt2) as [m c] eqn:M. simpl.
    intros X; inversion X; subst. exists a, b, r1, alt1, alt2, c. auto.
  - destruct (lmax_opt e alt1). discriminate.
Qed.

Lemma bind_err {A B} (p : parser A) (q : A -> parser B) ts e :
  r_out (p_bind p q ts) = Err e ->
  r_out (p ts) = Err e \/
  exists a r1 alt1 e2 c, r_out (p ts) = Ok a r1 alt1
    /\ r_out (q a r1) = Err e2 /\ lmax_opt e2 alt1 = (e, c).
Proof.
  unfold p_bind. destruct (r_out (p ts)) as [a r1 alt1|e1] eqn:P.
  - destruct (r_out (q a r1)) as [b r2 alt2|e2] eqn:Q.
    + destruct (merge_alts alt1 alt2) as [m c] eqn:M. discriminate.
    + destruct (lmax_opt e2 alt1) as [m c] eqn:M. simpl. intros X; inversion X; subst.
      right. exists a, r1, alt1, e2, c. auto.
  - intros X; inversion X; subst; auto.
Qed.

Lemma map_ok {A B} (f : A -> B) (p : parser A) ts x rest alt :
  r_out (p_map f p ts) = Ok x rest alt ->
  exists a, r_out (p ts) = Ok a rest alt /\ x = f a.
Proof.
  simpl. destruct (r_out (p ts)); [|discriminate].
  intros X; inversion X; subst. eauto.
Qed.

Lemma map_err_inv {A B} (f : A -> B) (p : parser A) ts e :
  r_out (p_map f p ts) = Err e -> r_out (p ts) = Err e.
Proof. simpl. destruct (r_out (p ts)); congruence. Qed.

Lemma span_ok {A} (p : parser A) ts x rest alt :
  r_out (p_spanned p ts) = Ok x rest alt ->
  exists a, r_out (p ts) = Ok a rest alt
    /\ x = Spanned (span_since ts (len rest)) a.
Proof.
  simpl. destruct (r_out (p ts)); [|discriminate].
  intros X; inversion X; subst. eauto.
Qed.

Lemma span_err {A} (p : parser A) ts e :
  r_out (p_spanned p ts) = Err e -> r_out (p ts) = Err e.
Proof. simpl. destruct (r_out (p ts)); congruence. Qed.

Lemma lmax_rem (a b m : located) c :
  lmax a b = (m, c) -> l_rem m = Nat.min (l_rem a) (l_rem b).
Proof.
  unfold lmax. destruct (Nat.compare_spec (l_rem a) (l_rem b)).
  - destruct (merge _ _); intros X; inversion X; subst; simpl; lia.
  - intros X; inversion X; subst. lia.
  - intros X; inversion X; subst. lia.
Qed.

Lemma lmax_lt (a b : located) : l_rem a < l_rem b -> lmax a b = (a, []).
Proof.
  intros H. unfold lmax. now apply Nat.compare_lt_iff in H as ->.
Qed.

Lemma lmax_gt (a b : located) : l_rem b < l_rem a -> lmax a b = (b, []).
Proof.
  intros H. unfold lmax. now apply Nat.compare_gt_iff in H as ->.
Qed.

Lemma merge_within k rest a b m c :
  merge_alts a b = (m, c) -> within k rest a -> within k rest b -> within k rest m.
Proof.
  destruct a as [a|], b as [b|]; simpl; intros X; inversion X; subst; simpl; auto.
  destruct (lmax b a) as [m' c'] eqn:M. inversion X; subst.
  apply lmax_rem in M. simpl. lia.
Qed.

Lemma within_weaken k j rest o : within k rest o -> k <= j -> within j rest o.
Proof. destruct o; simpl; lia. Qed.

Lemma within_shift k j (rest rest' : toks) o :
  within k rest o -> len rest' + k <= len rest + j -> within j rest' o.
Proof. destruct o; simpl; lia. Qed.

(** ** [rej] *)

Lemma rej_enear {A} f (p : parser A) : rej f p -> enear 0 (fun ts => hd f ts = false) p.
Proof.
  intros H ts e Q F. destruct (H ts F) as [e' [R _]]. rewrite R in Q.
  inversion Q; subst. simpl. lia.
Qed.

Lemma rej_no {A} f (p : parser A) ts a rest alt :
  rej f p -> r_out (p ts) = Ok a rest alt -> hd f ts = true.
Proof.
  intros H Q. destruct (hd f ts) eqn:F; auto.
  destruct (H ts F) as [e [R _]]. rewrite R in Q. discriminate.
Qed.

Lemma rej_weaken {A} (f g : char -> bool) (p : parser A) :
  rej f p -> (forall c, f c = true -> g c = true) -> rej g p.
Proof.
  intros H W ts Q. apply H. destruct ts as [|[c s] ts]; simpl in *; auto.
  destruct (f c) eqn:F; auto. apply W in F. congruence.
Qed.

Lemma rej_just x : rej (fun c => N.eqb c x) (p_just x).
Proof.
  intros [|[c s] ts] Q; simpl in *; unfold fail.
  - eexists; split; reflexivity || exact I.
  - rewrite Q. eexists; split; reflexivity || exact I.
Qed.

Lemma rej_filter f : rej f (p_filter f).
Proof.
  intros [|[c s] ts] Q; simpl in *; unfold fail.
  - eexists; split; reflexivity || exact I.
  - rewrite Q. eexists; split; reflexivity || exact I.
Qed.

Lemma rej_just_str x s : rej (fun c => N.eqb c x) (p_just_str (x :: s)).
Proof.
  intros [|[c sp] ts] Q; simpl in *; unfold fail.
  - eexists; split; reflexivity || exact I.
  - rewrite Q. eexists; split; reflexivity || exact I.
Qed.

Lemma rej_end : forall ts, ts <> [] ->
  exists e, p_end ts = Res [] (Err (Located (len ts) e)) [] /\ mergeable e.
Proof.
  intros [|[c s] ts] H; [congruence|]. simpl. unfold fail.
  eexists; split; reflexivity || exact I.
Qed.

Lemma rej_map {A B} f (g : A -> B) p : rej f p -> rej f (p_map g p).
Proof.
  intros H ts Q. destruct (H ts Q) as [e [R M]].
  exists e. unfold p_map. rewrite R. auto.
Qed.

Lemma rej_ignored {A} f (p : parser A) : rej f p -> rej f (p_ignored p).
Proof. apply rej_map. Qed.

Lemma rej_map_with_span {A B} f (g : A -> Sp -> B) p :
  rej f p -> rej f (p_map_with_span g p).
Proof.
  intros H ts Q. destruct (H ts Q) as [e [R M]].
  exists e. unfold p_map_with_span. rewrite R. auto.
Qed.

Lemma rej_spanned {A} f (p : parser A) : rej f p -> rej f (p_spanned p).
Proof. apply rej_map_with_span. Qed.

Lemma rej_map_err {A} f g (p : parser A) :
  (forall e, mergeable e -> mergeable (g e)) -> rej f p -> rej f (p_map_err g p).
Proof.
  intros G H ts Q. destruct (H ts Q) as [e [R M]].
  exists (g e). unfold p_map_err. rewrite R. auto.
Qed.

Lemma rej_map_err_with_span {A} f g (p : parser A) :
  (forall e s, mergeable e -> exists e', g e s = Some e' /\ mergeable e') ->
  rej f p -> rej f (p_map_err_with_span g p).
Proof.
  intros G H ts Q. destruct (H ts Q) as [e [R M]].
  destruct (G e (span_since ts (len ts)) M) as [e' [R' M']].
  exists e'. unfold p_map_err_with_span. rewrite R. simpl. rewrite R'. auto.
Qed.

Lemma rej_try_map {A B} f (g : A -> Sp -> B + perror Sp) p :
  rej f p -> rej f (p_try_map g p).
Proof.
  intros H ts Q. destruct (H ts Q) as [e [R M]].
  exists e. unfold p_try_map. rewrite R. auto.
Qed.

Lemma rej_validate {A B} f (g : A -> Sp -> B * option (perror Sp)) p :
  rej f p -> rej f (p_validate g p).
Proof.
  intros H ts Q. destruct (H ts Q) as [e [R M]].
  exists e. unfold p_validate. rewrite R. auto.
Qed.

Lemma rej_bind {A B} f (p : parser A) (q : A -> parser B) :
  rej f p -> rej f (p_bind p q).
Proof.
  intros H ts Q. destruct (H ts Q) as [e [R M]].
  exists e. unfold p_bind. rewrite R. auto.
Qed.

Lemma rej_then {A B} f (p : parser A) (q : parser B) : rej f p -> rej f (p_then p q).
Proof. apply rej_bind. Qed.
Lemma rej_ignore_then {A B} f (p : parser A) (q : parser B) :
  rej f p -> rej f (p_ignore_then p q).
Proof. intros. now apply rej_map, rej_then. Qed.
Lemma rej_then_ignore {A B} f (p : parser A) (q : parser B) :
  rej f p -> rej f (p_then_ignore p q).
Proof. intros. now apply rej_map, rej_then. Qed.
Lemma rej_delimited {A B C} f (p : parser A) (o : parser B) (c : parser C) :
  rej f o -> rej f (p_delimited p o c).
Proof. intros. now apply rej_then_ignore, rej_ignore_then. Qed.

Lemma hd_orb f g ts : hd (fun c => f c || g c) ts = false ->
  hd f ts = false /\ hd g ts = false.
Proof. destruct ts as [|[c s] ts]; simpl; auto. apply orb_false_iff. Qed.

Lemma lmax_same n (a b : perror Sp) : mergeable a -> mergeable b ->
  exists e, lmax (Located n a) (Located n b) = (Located n e, []) /\ mergeable e.
Proof.
  intros Ma Mb. unfold lmax. simpl. rewrite Nat.compare_refl.
  destruct (merge_mergeable _ _ Ma Mb) as [e [-> M]]. eauto.
Qed.

Lemma rej_or {A} f g (p q : parser A) :
  rej f p -> rej g q -> rej (fun c => f c || g c) (p_or p q).
Proof.
  intros Hp Hq ts Q. apply hd_orb in Q. destruct Q as [Q1 Q2].
  destruct (Hp ts Q1) as [e1 [R1 M1]]. destruct (Hq ts Q2) as [e2 [R2 M2]].
  unfold p_or. rewrite R1, R2. simpl. unfold cmp_at, cmp_last. simpl.
  rewrite Nat.compare_refl.
  destruct (lmax_same (len ts) _ _ M1 M2) as [e [-> M]]. eauto.
Qed.

Lemma rej_choice_from {A} f (ps : list (parser A)) : Forall (rej f) ps ->
  forall ts e0, hd f ts = false -> mergeable e0 ->
  exists e, p_choice_from (Some (Located (len ts) e0)) ps ts
    = Res [] (Err (Located (len ts) e)) [] /\ mergeable e.
Proof.
  induction 1 as [|p ps Hp Hps IH]; intros ts e0 Q M0; cbn [p_choice_from].
  - exists e0. split; [reflexivity|assumption].
  - destruct (Hp ts Q) as [e [R M]]. rewrite R. cbn [r_out merge_alts].
    destruct (lmax_same (len ts) _ _ M M0) as [e' [-> M']].
    destruct (IH ts e' Q M') as [e2 [-> M2]].
    exists e2. split; [reflexivity|assumption].
Qed.

Lemma rej_choice {A} f (ps : list (parser A)) :
  ps <> [] -> Forall (rej f) ps -> rej f (p_choice ps).
Proof.
  intros N F ts Q. unfold p_choice. destruct ps as [|p ps]; [congruence|].
  inversion F; subst. cbn [p_choice_from].
  destruct (H1 ts Q) as [e [R M]]. rewrite R. cbn [r_out merge_alts].
  destruct (rej_choice_from f ps H2 ts e Q M) as [e' [-> M']].
  exists e'. split; [reflexivity|assumption].
Qed.

Lemma rej_repeat1 {A} f am (p : parser A) :
  match am with Some m => 1 <= m | None => True end ->
  rej f p -> rej f (p_repeat 1 am p).
Proof.
  intros Am H ts Q. destruct (H ts Q) as [e [R M]].
  exists e. unfold p_repeat. cbn [Nat.add repeat_loop].
  destruct am as [[|m]|]; [lia| |]; cbn [List.length Nat.leb]; rewrite R;
    simpl; auto.
Qed.

(** An optional first part. *)
Lemma rej_opt_then {A B} f g (p : parser A) (q : parser B) :
  rej f p -> rej g q -> rej (fun c => f c || g c) (p_then (p_or_not p) q).
Proof.
  intros Hp Hq ts Q. apply hd_orb in Q. destruct Q as [Q1 Q2].
  destruct (Hp ts Q1) as [e1 [R1 M1]]. destruct (Hq ts Q2) as [e2 [R2 M2]].
  unfold p_then, p_bind, p_or_not. rewrite R1. simpl. rewrite R2. simpl.
  destruct (lmax_same (len ts) _ _ M2 M1) as [e [-> M]]. eauto.
Qed.

(** A repeated first part. *)
Lemma rej_repeated_ok {A} f (p : parser A) ts : rej f p -> hd f ts = false ->
  exists e, p_repeated p ts = Res [] (Ok [] ts (Some (Located (len ts) e))) []
    /\ mergeable e.
Proof.
  intros H Q. destruct (H ts Q) as [e [R M]]. exists e.
  unfold p_repeated, p_repeat. cbn [Nat.add repeat_loop]. rewrite R. simpl. auto.
Qed.

Lemma rej_or_not_ok {A} f (p : parser A) ts : rej f p -> hd f ts = false ->
  exists e, p_or_not p ts = Res [] (Ok None ts (Some (Located (len ts) e))) []
    /\ mergeable e.
Proof.
  intros H Q. destruct (H ts Q) as [e [R M]]. exists e.
  unfold p_or_not. rewrite R. simpl. auto.
Qed.

(** ** [near] and [enear] *)

Lemma near_weaken {A} k j (F G : toks -> Prop) (p : parser A) :
  near k F p -> k <= j -> (forall ts, G ts -> F ts) -> near j G p.
Proof. intros H L W ts a rest alt Q g. eapply within_weaken; eauto. Qed.

Lemma enear_weaken {A} k j (F G : toks -> Prop) (p : parser A) :
  enear k F p -> k <= j -> (forall ts, G ts -> F ts) -> enear j G p.
Proof. intros H L W ts e Q g. specialize (H ts e Q (W _ g)). lia. Qed.

(** Parsers that leave no alternative error at all. *)
Definition noalt {A} (p : parser A) : Prop :=
  forall ts a rest alt, r_out (p ts) = Ok a rest alt -> alt = None.

Lemma noalt_near {A} k F (p : parser A) : noalt p -> near k F p.
Proof. intros H ts a rest alt Q _. rewrite (H _ _ _ _ Q). exact I. Qed.

Lemma noalt_just x : noalt (p_just x).
Proof.
  intros [|[c s] ts] a rest alt; simpl; [discriminate|].
  destruct (N.eqb c x); simpl; congruence.
Qed.
Lemma noalt_filter x : noalt (p_filter x).
Proof.
  intros [|[c s] ts] a rest alt; simpl; [discriminate|].
  destruct (x c); simpl; congruence.
Qed.
Lemma noalt_filter_map {A} (f : Sp -> char -> A + perror Sp) : noalt (p_filter_map f).
Proof.
  intros [|[c s] ts] a rest alt; simpl; [discriminate|].
  destruct (f s c); simpl; congruence.
Qed.
Lemma noalt_just_str s : noalt (p_just_str s).
Proof.
  induction s as [|x s IH]; intros ts a rest alt; cbn [p_just_str].
  - simpl. congruence.
  - destruct ts as [|[c sp] ts]; simpl; [discriminate|].
    destruct (N.eqb c x); [apply IH|discriminate].
Qed.
Lemma noalt_map {A B} (f : A -> B) p : noalt p -> noalt (p_map f p).
Proof.
  intros H ts x rest alt Q. apply map_ok in Q as [a [Q _]]. eauto.
Qed.
Lemma noalt_ignored {A} (p : parser A) : noalt p -> noalt (p_ignored p).
Proof. apply noalt_map. Qed.
Lemma noalt_map_err {A} f (p : parser A) : noalt p -> noalt (p_map_err f p).
Proof.
  intros H ts x rest alt. simpl. destruct (r_out (p ts)) eqn:Q; [|discriminate].
  intros X; inversion X; subst. eauto.
Qed.
Lemma noalt_rewind {A} (p : parser A) : noalt p -> noalt (p_rewind p).
Proof.
  intros H ts x rest alt. simpl. destruct (r_out (p ts)) eqn:Q; [|discriminate].
  intros X; inversion X; subst. eauto.
Qed.
Lemma noalt_then {A B} (p : parser A) (q : parser B) :
  noalt p -> noalt q -> noalt (p_then p q).
Proof.
  intros Hp Hq ts x rest alt Q.
  apply bind_ok in Q as (a & b & r1 & alt1 & alt2 & c & Q1 & Q2 & M & ->).
  rewrite (Hp _ _ _ _ Q1), (Hq _ _ _ _ Q2) in M. simpl in M. congruence.
Qed.
Lemma noalt_ignore_then {A B} (p : parser A) (q : parser B) :
  noalt p -> noalt q -> noalt (p_ignore_then p q).
Proof. intros. now apply noalt_map, noalt_then. Qed.
Lemma noalt_then_ignore {A B} (p : parser A) (q : parser B) :
  noalt p -> noalt q -> noalt (p_then_ignore p q).
Proof. intros. now apply noalt_map, noalt_then. Qed.
Lemma noalt_end : noalt p_end.
Proof. intros [|x ts] a rest alt; simpl; congruence. Qed.

Lemma near_map {A B} k F (f : A -> B) p : near k F p -> near k F (p_map f p).
Proof. intros H ts x rest alt Q. apply map_ok in Q as [a [Q _]]. eauto. Qed.
Lemma near_ignored {A} k F (p : parser A) : near k F p -> near k F (p_ignored p).
Proof. apply near_map. Qed.
Lemma near_spanned {A} k F (p : parser A) : near k F p -> near k F (p_spanned p).
Proof. intros H ts x rest alt Q. apply span_ok in Q as [a [Q _]]. eauto. Qed.
Lemma near_map_err {A} k F f (p : parser A) : near k F p -> near k F (p_map_err f p).
Proof.
  intros H ts x rest alt. simpl. destruct (r_out (p ts)) eqn:Q; [|discriminate].
  intros X; inversion X; subst. eauto.
Qed.
Lemma near_map_err_with_span {A} k F f (p : parser A) :
  near k F p -> near k F (p_map_err_with_span f p).
Proof.
  intros H ts x rest alt. unfold p_map_err_with_span.
  destruct (r_out (p ts)) eqn:Q.
  - rewrite Q. intros X; inversion X; subst. eauto.
  - destruct (f _ _); discriminate.
Qed.
Lemma near_try_map {A B} k F (f : A -> Sp -> B + perror Sp) p :
  near k F p -> near k F (p_try_map f p).
Proof.
  intros H ts x rest alt. simpl. destruct (r_out (p ts)) eqn:Q; [|discriminate].
  destruct (f a _); [|discriminate].
  intros X; inversion X; subst. eauto.
Qed.
Lemma near_validate {A B} k F (f : A -> Sp -> B * option (perror Sp)) p :
  near k F p -> near k F (p_validate f p).
Proof.
  intros H ts x rest alt. unfold p_validate.
  destruct (r_out (p ts)) eqn:Q; [|discriminate].
  destruct (f a _). simpl. intros X; inversion X; subst. eauto.
Qed.

Lemma enear_map {A B} k F (f : A -> B) p : enear k F p -> enear k F (p_map f p).
Proof. intros H ts e Q. apply map_err_inv in Q. eauto. Qed.
Lemma enear_ignored {A} k F (p : parser A) : enear k F p -> enear k F (p_ignored p).
Proof. apply enear_map. Qed.
Lemma enear_spanned {A} k F (p : parser A) : enear k F p -> enear k F (p_spanned p).
Proof. intros H ts e Q. apply span_err in Q. eauto. Qed.
Lemma enear_map_err {A} k F f (p : parser A) :
  enear k F p -> enear k F (p_map_err f p).
Proof.
  intros H ts e. simpl. destruct (r_out (p ts)) eqn:Q; [discriminate|].
  intros X; inversion X; subst. simpl. eauto.
Qed.
Lemma enear_map_err_with_span {A} k F f (p : parser A) :
  enear k F p -> enear k F (p_map_err_with_span f p).
Proof.
  intros H ts e. unfold p_map_err_with_span.
  destruct (r_out (p ts)) eqn:Q.
  - rewrite Q. discriminate.
  - destruct (f _ _); simpl; intros X; inversion X; subst; simpl; eauto.
Qed.

(** The alternative error of the first part may be [j] further if the second
    part consumes [j]. *)
Lemma near_bind {A B} k j (F G : toks -> Prop) (p : parser A) (q : A -> parser B) :
  near (k + j) G p -> (forall a, near k F (q a)) -> (forall a, eats j (q a)) ->
  (forall a b r1 rest alt, r_out (q a r1) = Ok b rest alt -> F rest -> G r1) ->
  near k F (p_bind p q).
Proof.
  intros Hp Hq He HG ts x rest alt Q f.
  apply bind_ok in Q as (a & b & r1 & alt1 & alt2 & c & Q1 & Q2 & M & ->).
  apply (merge_within k rest _ _ _ _ M).
  - eapply within_shift; [eapply Hp; eauto|]. apply He in Q2. lia.
  - eapply Hq; eauto.
Qed.

Lemma near_then {A B} k j (F G : toks -> Prop) (p : parser A) (q : parser B) :
  near (k + j) G p -> near k F q -> eats j q ->
  (forall b r1 rest alt, r_out (q r1) = Ok b rest alt -> F rest -> G r1) ->
  near k F (p_then p q).
Proof. intros. eapply near_bind; eauto. Qed.

Lemma near_ignore_then {A B} k j (F G : toks -> Prop) (p : parser A) (q : parser B) :
  near (k + j) G p -> near k F q -> eats j q ->
  (forall b r1 rest alt, r_out (q r1) = Ok b rest alt -> F rest -> G r1) ->
  near k F (p_ignore_then p q).
Proof. intros. apply near_map. eapply near_then; eauto. Qed.

Lemma near_then_ignore {A B} k j (F G : toks -> Prop) (p : parser A) (q : parser B) :
  near (k + j) G p -> near k F q -> eats j q ->
  (forall b r1 rest alt, r_out (q r1) = Ok b rest alt -> F rest -> G r1) ->
  near k F (p_then_ignore p q).
Proof. intros. apply near_map. eapply near_then; eauto. Qed.

Lemma near_or {A} k F (p q : parser A) :
  near k F p -> near k F q ->
  (forall ts e b rest alt, r_out (p ts) = Err e -> r_out (q ts) = Ok b rest alt ->
     F rest -> len rest <= l_rem e + k) ->
  (forall ts a rest alt, r_errs (p ts) <> [] -> r_out (p ts) = Ok a rest alt ->
     exists e, r_out (q ts) = Err e /\ (F rest -> len rest <= l_rem e + k)) ->
  near k F (p_or p q).
Proof.
  intros Hp Hq X1 X2 ts x rest' alt0 R f.
  destruct (p_or_cases p q ts) as
    [(a & rest & alt & He & Ho & X)
    |[D [(a & rest & alt & alt' & c & Ho & He & M & X)
        |[(a & rest & alt & alt' & c & Ho & M & X)
         |(ea & eb & Ha & Hb & [[X _]|[[X _]|(e & c & M & Le & X)]])]]]];
  rewrite X in R; simpl in R; try discriminate.
  - eauto.
  - inversion R; subst. destruct (X2 _ _ _ _ He Ho) as [e [Q L]].
    rewrite Q in M. simpl in M.
    eapply merge_within; eauto. simpl. auto.
  - inversion R; subst.
    destruct (r_out (p ts)) as [a1 r1 al1|e] eqn:Q.
    + destruct D as [D|[e D]]; [|discriminate].
      destruct (X2 _ _ _ _ D Q) as [e [Q' _]]. congruence.
    + simpl in M. eapply merge_within; eauto. simpl. eauto.
Qed.

(** The usual case: the first branch emits nothing and fails nearby. *)
Lemma near_or_quiet {A} k j F (p q : parser A) :
  near k F p -> near k F q -> quiet p -> eats j q -> enear (k + j) anyp p ->
  near k F (p_or p q).
Proof.
  intros Hp Hq Qp He Hn. apply near_or; auto.
  - intros ts e b rest alt P Q f. apply He in Q. specialize (Hn _ _ P I). lia.
  - intros ts a rest alt N. now rewrite Qp in N.
Qed.

Lemma enear_or {A} k F (p q : parser A) :
  enear k F p -> enear k F q -> enear k F (p_or p q).
Proof.
  intros Hp Hq ts e R f.
  destruct (p_or_cases p q ts) as
    [(a & rest & alt & He & Ho & X)
    |[D [(a & rest & alt & alt' & c & Ho & He & M & X)
        |[(a & rest & alt & alt' & c & Ho & M & X)
         |(ea & eb & Ha & Hb & [[X _]|[[X _]|(e' & c & M & Le & X)]])]]]];
  rewrite X in R; simpl in R; try discriminate; try congruence;
  inversion R; subst; eauto.
  apply lmax_rem in M. specialize (Hp _ _ Ha f). lia.
Qed.

Lemma enear_bind {A B} k j (F G : toks -> Prop) (p : parser A) (q : A -> parser B) :
  enear k F p -> (forall ts a r1 alt, r_out (p ts) = Ok a r1 alt -> F ts ->
     len ts <= len r1 + j /\ G r1 /\ within k ts alt) ->
  (forall a, enear (k - j) G (q a)) -> j <= k -> enear k F (p_bind p q).
Proof.
  intros Hp Ho Hq L ts e R f. apply bind_err in R as [R|R]; eauto.
  destruct R as (a & r1 & alt1 & e2 & c & Q1 & Q2 & M).
  destruct (Ho _ _ _ _ Q1 f) as (L1 & g & W).
  specialize (Hq _ _ _ Q2 g).
  destruct alt1 as [e1|]; simpl in *.
  - apply lmax_rem in M. lia.
  - inversion M; subst. lia.
Qed.

Lemma choice_from_ok {A} (ps : list (parser A)) : forall alt0 ts a rest alt,
  r_out (p_choice_from alt0 ps ts) = Ok a rest alt ->
  exists p, In p ps /\ r_out (p ts) = Ok a rest alt
    /\ r_errs (p_choice_from alt0 ps ts) = r_errs (p ts).
Proof.
  induction ps as [|p ps IH]; intros alt0 ts a rest alt; cbn [p_choice_from].
  - destruct alt0; discriminate.
  - destruct (r_out (p ts)) as [x r al|e] eqn:Q.
    + intros X. exists p. split; [now left|]. split; [congruence|reflexivity].
    + destruct (merge_alts alt0 (Some e)) as [m c]. simpl. intros X.
      destruct (IH _ _ _ _ _ X) as [p' [I' Q']]. eauto.
Qed.

Lemma near_choice {A} k F (ps : list (parser A)) :
  Forall (near k F) ps -> near k F (p_choice ps).
Proof.
  intros H ts a rest alt Q f. apply choice_from_ok in Q as (p & I' & Q & _).
  rewrite Forall_forall in H. eapply H; eauto.
Qed.

Lemma near_or_not {A} k F (p : parser A) :
  near k F p -> enear k F p -> near k F (p_or_not p).
Proof.
  intros Hn He ts x rest alt. unfold p_or_not.
  destruct (r_out (p ts)) as [a r al|e] eqn:Q; simpl;
    intros X; inversion X; subst; intros f; simpl; eauto.
Qed.

(** A loop: the errors of the iterations are near, and so is the last one. *)
Lemma repeat_loop_near {A} k F (p : parser A) al am :
  near k anyp p -> enear k F p -> eats 1 p ->
  forall fuel errs outs alt old cr ts a rest alt',
  r_out (repeat_loop fuel p al am errs outs alt old cr ts) = Ok a rest alt' ->
  within k ts alt -> F rest -> within k rest alt'.
Proof.
  intros Hn He Ht. induction fuel as [|fuel IH]; intros errs outs alt old cr ts a
    rest alt'; cbn [repeat_loop].
  - simpl. intros X; inversion X; subst. auto.
  - match goal with |- context [if ?b then Res _ _ _ else _] => destruct b end.
    { simpl. intros X; inversion X; subst. auto. }
    destruct (r_out (p ts)) as [x r al1|e] eqn:Q.
    + destruct (merge_alts alt al1) as [m c] eqn:M.
      intros X W f.
      assert (W' : within k r m).
      { eapply merge_within; eauto.
        - eapply within_shift; eauto. apply Ht in Q. lia.
        - eapply Hn; eauto. exact I. }
      match type of X with context [if ?b then Res _ _ _ else _] => destruct b end.
      * simpl in X. inversion X; subst. auto.
      * eapply IH; eauto.
    + destruct (_ <? _); [discriminate|].
      destruct (merge_alts alt (Some e)) as [m c] eqn:M. simpl.
      intros X W f; inversion X; subst.
      eapply merge_within; eauto. simpl. eauto.
Qed.

Lemma near_repeat {A} k F al am (p : parser A) :
  near k anyp p -> enear k F p -> eats 1 p -> near k F (p_repeat al am p).
Proof.
  intros Hn He Ht ts a rest alt Q f. unfold p_repeat in Q.
  eapply repeat_loop_near; eauto. exact I.
Qed.

Lemma near_repeated {A} k F (p : parser A) :
  near k anyp p -> enear k F p -> eats 1 p -> near k F (p_repeated p).
Proof. apply near_repeat. Qed.

Lemma until_loop_near {A} k j i (p : parser A) :
  near k anyp p -> enear i anyp p -> eats j p -> i <= k + j + 1 ->
  forall ts alt outs cr a rest alt',
  r_out (until_loop p alt outs cr ts) = Ok a rest alt' ->
  within (k + j) ts alt -> within k rest alt'.
Proof.
  intros Hn He Ht Li. induction ts as [|[ch sp] ts IH];
    intros alt outs cr a rest alt'; cbn [until_loop];
    match goal with |- context [p ?t] =>
      destruct (r_out (p t)) as [x r al1|e] eqn:Q end.
  1, 3: destruct (merge_alts alt al1) as [m c] eqn:M; simpl;
    intros X W; inversion X; subst; eapply merge_within; eauto;
    [ eapply within_shift; eauto; apply Ht in Q; simpl in *; lia
    | eapply Hn; eauto; exact I ].
  - discriminate.
  - destruct (merge_alts alt (Some e)) as [m c] eqn:M.
    intros X W. eapply IH; eauto.
    eapply merge_within; eauto.
    + eapply within_shift; eauto. simpl. lia.
    + simpl. specialize (He _ _ Q I). simpl in He. lia.
Qed.

Lemma near_take_until {A} k j i F (p : parser A) :
  near k anyp p -> enear i anyp p -> eats j p -> i <= k + j + 1 ->
  near k F (p_take_until p).
Proof.
  intros Hn He Ht Li ts a rest alt Q f.
  eapply (until_loop_near k j i); eauto. exact I.
Qed.

End Near.
