(** Two inputs that begin alike: as long as a parser has not looked past what they
    share, it does the same on both.

    [low n o]: the outcome, and the errors it keeps, lie more than [n] tokens before
    the end.  [det p]: when the outcome of [p] on [m ++ q] is low for the length of
    [q], the outcome on [m ++ q'] is the same up to the end. *)

From Coq Require Import NArith PeanoNat List Bool String Lia.
From Verif Require Import Chars Ast Errors Chumsky Spans Grammar Safe GrammarSafe Near GrammarNear Kdl KdlText Good EarlySpec.
Import ListNotations.
Local Open Scope list_scope.

Local Existing Instance unit_env.

Notation parser := (parser unit).
Notation toks := (toks unit).
Notation located := (located unit).
Notation len := (@List.length (tok unit)).

Definition lowo (n : nat) (o : option located) : Prop :=
  match o with Some e => n < l_rem e | None => True end.

Definition low {A} (n : nat) (o : outcome unit A) : Prop :=
  match o with
  | Ok _ rest alt => n < len rest /\ lowo n alt
  | Err e => n < l_rem e
  end.

Definition agree {A} (q q' : toks) (o o' : outcome unit A) : Prop :=
  match o, o' with
  | Ok a rest _, Ok a' rest' _ => a = a' /\ exists m, rest = m ++ q /\ rest' = m ++ q'
  | Err _, Err _ => True
  | _, _ => False
  end.

Definition fwd {A} (p : parser A) : Prop :=
  forall ts, match r_out (p ts) with
             | Ok _ rest _ => suffix rest ts
             | Err e => l_rem e <= len ts
             end.

Definition det {A} (p : parser A) : Prop :=
  forall m q q', tidy (chars (m ++ q)) -> low (len q) (r_out (p (m ++ q))) ->
  agree q q' (r_out (p (m ++ q))) (r_out (p (m ++ q'))).

Definition D {A} (p : parser A) : Prop := fwd p /\ det p.

(** ** Texts *)

Lemma tidy_suffix (u v : text) : tidy (u ++ v) -> tidy v.
Proof.
  intros (H1 & H2 & H3 & H4). split; [|split; [|split]].
  - intros a w ->. apply (H1 (u ++ a)). rewrite app_assoc. reflexivity.
  - intros a n w ->. apply (H2 (u ++ a) n). rewrite app_assoc. reflexivity.
  - intros a w ->. apply (H3 (u ++ a)). rewrite app_assoc. reflexivity.
  - intros a c d w s C F W ->. apply (H4 (u ++ a) c d w s C F W). rewrite app_assoc. reflexivity.
Qed.

Lemma tidy_rest (rest ts : toks) : suffix rest ts -> tidy (chars ts) -> tidy (chars rest).
Proof. intros [s ->]. unfold chars. rewrite map_app. apply tidy_suffix. Qed.

Lemma cut_length {A} (m q x y : list A) : m ++ q = x ++ y -> List.length q <= List.length y ->
  exists z, m = x ++ z /\ y = z ++ q.
Proof.
  intros H L. apply app_eq_app in H. destruct H as (l & [[-> ->]|[-> ->]]).
  - exists l. auto.
  - rewrite app_length in L. destruct l; [|simpl in L; lia]. exists []. rewrite !app_nil_r. auto.
Qed.

Lemma suffix_cut (m q rest : toks) : suffix rest (m ++ q) -> len q <= len rest ->
  exists m1 m2, m = m1 ++ m2 /\ rest = m2 ++ q.
Proof. intros [s H] L. destruct (cut_length _ _ _ _ H L) as (z & -> & ->). exists s, z. auto. Qed.

(** ** Shapes *)

Lemma lowo_merge n (a b m : option located) c : merge_alts a b = (m, c) ->
  (lowo n m <-> lowo n a /\ lowo n b).
Proof.
  destruct a as [a|], b as [b|]; cbn [merge_alts]; intros X; try (inversion X; subst; simpl; tauto).
  destruct (lmax b a) as [m' c'] eqn:M. inversion X; subst. apply lmax_rem in M. simpl. lia.
Qed.

Lemma lowo_merge_list n l : forall (a m : option located) c, merge_alts_list a l = (m, c) ->
  lowo n m -> lowo n a.
Proof.
  induction l as [|b l IH]; cbn [merge_alts_list]; intros a m c X H; [inversion X; subst; exact H|].
  destruct (merge_alts a (Some b)) as [m1 c1] eqn:M. destruct (merge_alts_list m1 l) as [m2 c2] eqn:M2.
  inversion X; subst. apply IH in M2; [|exact H]. apply (lowo_merge n) in M. apply M, M2.
Qed.

Lemma low_lmax n (a : located) b m c : lmax_opt a b = (m, c) -> (n < l_rem m <-> n < l_rem a /\ lowo n b).
Proof.
  destruct b as [b|]; cbn [lmax_opt]; intros X; [|inversion X; subst; simpl; tauto].
  apply lmax_rem in X. simpl. lia.
Qed.

Lemma agree_ok {A} q q' (a : A) rest alt o : agree q q' (Ok a rest alt) o ->
  exists m alt', rest = m ++ q /\ o = Ok a (m ++ q') alt'.
Proof.
  destruct o as [a' r' alt'|]; [|intros []]. intros (<- & m & -> & ->). exists m, alt'. auto.
Qed.

Lemma agree_err {A} q q' (e : located) (o : outcome unit A) : agree q q' (Err e) o -> exists e', o = Err e'.
Proof. destruct o; [intros []|]. eauto. Qed.

Lemma agree_same {A} q q' m (a : A) alt alt' : agree q q' (Ok a (m ++ q) alt) (Ok a (m ++ q') alt').
Proof. split; [reflexivity|]. exists m. auto. Qed.

(** ** Going forward *)

Lemma fwd_safe {A} (p : parser A) : (forall n, safe n p) -> fwd p.
Proof.
  intros S ts. destruct (S (len ts) ts (le_n _)) as [_ H]. destruct (r_out (p ts)); apply H.
Qed.

Lemma fwd_ok {A} (p : parser A) ts a rest alt : fwd p -> r_out (p ts) = Ok a rest alt -> suffix rest ts.
Proof. intros F H. specialize (F ts). rewrite H in F. exact F. Qed.

Lemma fwd_err {A} (p : parser A) ts e : fwd p -> r_out (p ts) = Err e -> l_rem e <= len ts.
Proof. intros F H. specialize (F ts). rewrite H in F. exact F. Qed.

Lemma fwd_map {A B} (f : A -> B) p : fwd p -> fwd (p_map f p).
Proof. intros F ts. specialize (F ts). cbn [p_map r_out]. destruct (r_out (p ts)); exact F. Qed.

Lemma fwd_map_with_span {A B} (f : A -> unit -> B) p : fwd p -> fwd (p_map_with_span f p).
Proof. intros F ts. specialize (F ts). cbn [p_map_with_span r_out]. destruct (r_out (p ts)); exact F. Qed.

Lemma fwd_spanned {A} (p : parser A) : fwd p -> fwd (p_spanned p).
Proof. apply fwd_map_with_span. Qed.

Lemma fwd_map_err {A} f (p : parser A) : fwd p -> fwd (p_map_err f p).
Proof. intros F ts. specialize (F ts). cbn [p_map_err r_out]. destruct (r_out (p ts)); exact F. Qed.

Lemma fwd_map_err_with_span {A} f (p : parser A) : fwd p -> fwd (p_map_err_with_span f p).
Proof.
  intros F ts. specialize (F ts). unfold p_map_err_with_span. destruct (r_out (p ts)) eqn:O; [rewrite O; exact F|].
  destruct (f _ _); exact F.
Qed.

Lemma fwd_or_not {A} (p : parser A) : fwd p -> fwd (p_or_not p).
Proof.
  intros F ts. specialize (F ts). unfold p_or_not. destruct (r_out (p ts)); cbn [r_out]; [exact F|].
  apply suffix_refl.
Qed.

Lemma fwd_validate {A B} (f : A -> unit -> B * option (perror unit)) p : fwd p -> fwd (p_validate f p).
Proof.
  intros F ts. specialize (F ts). unfold p_validate. destruct (r_out (p ts)); [|exact F].
  destruct (f _ _). exact F.
Qed.

Lemma fwd_try_map {A B} (f : A -> unit -> B + perror unit) p : fwd p -> fwd (p_try_map f p).
Proof.
  intros F ts. specialize (F ts). unfold p_try_map. cbn [r_out]. destruct (r_out (p ts)); [|exact F].
  destruct (f _ _); [exact F|]. apply suffix_len, F.
Qed.

(** ** One token *)

Lemma det_just x : det (p_just x).
Proof.
  intros m q q' T. destruct m as [|[c s] m]; cbn [app p_just].
  - destruct q as [|[c s] q]; cbn [p_just]; [simpl; lia|].
    destruct (N.eqb c x); simpl; lia.
  - destruct (N.eqb c x); simpl; [|auto]. intros _. split; [reflexivity|]. exists m. auto.
Qed.

Lemma det_filter f : det (p_filter f).
Proof.
  intros m q q' T. destruct m as [|[c s] m]; cbn [app p_filter].
  - destruct q as [|[c s] q]; cbn [p_filter]; [simpl; lia|].
    destruct (f c); simpl; lia.
  - destruct (f c); simpl; [|auto]. intros _. split; [reflexivity|]. exists m. auto.
Qed.

Lemma det_just_str s : det (p_just_str s).
Proof.
  induction s as [|x s IH]; intros m q q' T.
  - intros _. apply (agree_same q q' m).
  - destruct m as [|[c sp] m].
    + cbn [app p_just_str]. destruct q as [|[c sp] q]; [simpl; lia|]. destruct (N.eqb c x).
      * intros L. exfalso. assert (fwd (p_just_str s)) as F by (apply fwd_safe; intros n; apply safe_just_str).
        specialize (F q). destruct (r_out (p_just_str s q)); cbn [low] in L.
        -- apply suffix_len in F. simpl in L. lia.
        -- simpl in L. lia.
      * cbn [r_out fail low unexpected l_rem]. simpl. lia.
    + cbn [app p_just_str]. destruct (N.eqb c x).
      * apply IH. apply (tidy_suffix [c]). exact T.
      * simpl. auto.
Qed.

Lemma det_end : det p_end.
Proof.
  intros m q q' T. destruct m as [|x m]; cbn [app].
  - intros L. exfalso. destruct q as [|[c s] q]; cbn [p_end r_out fail low lowo unexpected l_rem] in L;
      [destruct L as [L _]|]; exact (Nat.lt_irrefl _ L).
  - simpl. auto.
Qed.

(** ** What keeps the outcome *)

Lemma det_map {A B} (f : A -> B) p : det p -> det (p_map f p).
Proof.
  intros P m q q' T. cbn [p_map r_out]. specialize (P m q q' T).
  destruct (r_out (p (m ++ q))) as [a r alt|e]; intros L; specialize (P L).
  - apply agree_ok in P. destruct P as (m2 & alt' & -> & ->). apply agree_same.
  - apply agree_err in P. destruct P as (e' & ->). exact I.
Qed.

Lemma det_ignored {A} (p : parser A) : det p -> det (p_ignored p).
Proof. apply det_map. Qed.

Lemma det_map_with_span {A B} (f : A -> unit -> B) p : det p -> det (p_map_with_span f p).
Proof.
  intros P m q q' T. cbn [p_map_with_span r_out]. specialize (P m q q' T).
  destruct (r_out (p (m ++ q))) as [a r alt|e]; intros L; specialize (P L).
  - apply agree_ok in P. destruct P as (m2 & alt' & -> & ->).
    destruct (span_since (m ++ q) _), (span_since (m ++ q') _). apply agree_same.
  - apply agree_err in P. destruct P as (e' & ->). exact I.
Qed.

Lemma det_spanned {A} (p : parser A) : det p -> det (p_spanned p).
Proof. apply det_map_with_span. Qed.

Lemma det_map_err {A} f (p : parser A) : det p -> det (p_map_err f p).
Proof.
  intros P m q q' T. cbn [p_map_err r_out]. specialize (P m q q' T).
  destruct (r_out (p (m ++ q))) as [a r alt|e]; intros L; specialize (P L).
  - apply agree_ok in P. destruct P as (m2 & alt' & -> & ->). apply agree_same.
  - apply agree_err in P. destruct P as (e' & ->). exact I.
Qed.

Lemma span_err_out {A} f (p : parser A) ts : match r_out (p ts) with
  | Ok a r alt => r_out (p_map_err_with_span f p ts) = Ok a r alt
  | Err e => exists e', r_out (p_map_err_with_span f p ts) = Err e' /\ l_rem e' = l_rem e
  end.
Proof.
  unfold p_map_err_with_span. destruct (r_out (p ts)) as [a r alt|e] eqn:O; [exact O|].
  destruct (f _ _); eexists; split; reflexivity.
Qed.

Lemma det_map_err_with_span {A} f (p : parser A) : det p -> det (p_map_err_with_span f p).
Proof.
  intros P m q q' T L. specialize (P m q q' T).
  generalize (span_err_out f p (m ++ q)), (span_err_out f p (m ++ q')).
  destruct (r_out (p (m ++ q))) as [a r alt|e].
  - intros X. rewrite X in *. specialize (P L). apply agree_ok in P. destruct P as (m2 & alt' & -> & ->).
    intros ->. apply agree_same.
  - intros (e1 & X & Y). rewrite X in *. cbn [low] in *. rewrite Y in L. specialize (P L).
    apply agree_err in P. destruct P as (e' & ->). intros (e2 & -> & _). exact I.
Qed.

Lemma det_or_not {A} (p : parser A) : det p -> det (p_or_not p).
Proof.
  intros P m q q' T. specialize (P m q q' T). unfold p_or_not.
  destruct (r_out (p (m ++ q))) as [a r alt|e]; cbn [r_out]; intros L.
  - specialize (P L). apply agree_ok in P. destruct P as (m2 & alt' & -> & ->). apply agree_same.
  - destruct L as [_ L]. specialize (P L). apply agree_err in P. destruct P as (e' & ->). apply agree_same.
Qed.

Lemma det_validate {A B} (f : A -> unit -> B * option (perror unit)) p : det p -> det (p_validate f p).
Proof.
  intros P m q q' T. specialize (P m q q' T). unfold p_validate.
  destruct (r_out (p (m ++ q))) as [a r alt|e].
  - destruct (span_since (m ++ q) _). destruct (f a tt) as [b e] eqn:F. cbn [r_out]. intros L.
    specialize (P L). apply agree_ok in P. destruct P as (m2 & alt' & -> & ->).
    destruct (span_since (m ++ q') _). rewrite F. apply agree_same.
  - intros L. specialize (P L). apply agree_err in P. destruct P as (e' & ->). exact I.
Qed.

Lemma det_try_map {A B} (f : A -> unit -> B + perror unit) p : det p ->
  (forall m q q' a rest alt e, tidy (chars (m ++ q)) -> r_out (p (m ++ q)) = Ok a rest alt -> f a tt = inr e ->
    len q < len rest -> match r_out (p (m ++ q')) with
                        | Ok a' _ _ => exists e', f a' tt = inr e'
                        | Err _ => True
                        end) ->
  det (p_try_map f p).
Proof.
  intros P H m q q' T. specialize (P m q q' T). unfold p_try_map. cbn [r_out].
  destruct (r_out (p (m ++ q))) as [a r alt|e] eqn:O.
  - destruct (span_since (m ++ q) _). destruct (f a tt) as [b|e] eqn:F; intros L.
    + specialize (P L). apply agree_ok in P. destruct P as (m2 & alt' & -> & ->).
      destruct (span_since (m ++ q') _). rewrite F. apply agree_same.
    + specialize (H m q q' a r alt e T O F L). destruct (r_out (p (m ++ q'))); [|exact I].
      destruct H as (e' & H). destruct (span_since (m ++ q') _). rewrite H. exact I.
  - intros L. specialize (P L). apply agree_err in P. destruct P as (e' & ->). exact I.
Qed.

(** ** Sequences *)

Lemma fwd_bind {A B} (p : parser A) (k : A -> parser B) : fwd p -> (forall a, fwd (k a)) -> fwd (p_bind p k).
Proof.
  intros P K ts. destruct (r_out (p_bind p k ts)) as [x rest alt|e] eqn:O.
  - apply bind_ok in O. destruct O as (a & b & r1 & alt1 & alt2 & c & O1 & O2 & _).
    eapply suffix_trans; [eapply fwd_ok, O2; apply K|eapply fwd_ok, O1; apply P].
  - apply bind_err in O. destruct O as [O|(a & r1 & alt1 & e2 & c & O1 & O2 & M)].
    + eapply fwd_err, O. apply P.
    + apply (low_lmax (l_rem e - 1)) in M. apply fwd_ok in O1; [|exact P]. apply fwd_err in O2; [|apply K].
      apply suffix_len in O1. lia.
Qed.

Lemma det_bind {A B} (p : parser A) (k : A -> parser B) : D p -> (forall a, D (k a)) -> det (p_bind p k).
Proof.
  intros [F P] K m q q' T L. specialize (P m q q' T).
  destruct (r_out (p_bind p k (m ++ q))) as [x rest alt|e] eqn:O.
  - apply bind_ok in O. destruct O as (a & b & r1 & alt1 & alt2 & c & O1 & O2 & M & ->).
    destruct L as [L1 L2]. apply (lowo_merge (len q)) in M. apply M in L2. destruct L2 as [L2 L3].
    destruct (K a) as [Fk Pk]. generalize (suffix_len _ _ (fwd_ok _ _ _ _ _ Fk O2)). intros L4.
    rewrite O1 in P. assert (T1 := tidy_rest _ _ (fwd_ok _ _ _ _ _ F O1) T).
    specialize (P (conj (Nat.lt_le_trans _ _ _ L1 L4) L2)). apply agree_ok in P.
    destruct P as (m1 & alt1' & -> & P). specialize (Pk m1 q q' T1). rewrite O2 in Pk.
    specialize (Pk (conj L1 L3)). apply agree_ok in Pk. destruct Pk as (m2 & alt2' & -> & Pk).
    unfold p_bind. rewrite P, Pk. destruct (merge_alts alt1' alt2'). apply agree_same.
  - apply bind_err in O. destruct O as [O|(a & r1 & alt1 & e2 & c & O1 & O2 & M)].
    + rewrite O in P. specialize (P L). apply agree_err in P. destruct P as (e' & P).
      unfold p_bind. rewrite P. exact I.
    + apply (low_lmax (len q)) in M. apply M in L. destruct L as [L1 L2].
      destruct (K a) as [Fk Pk]. generalize (fwd_err _ _ _ Fk O2). intros L4.
      rewrite O1 in P. assert (T1 := tidy_rest _ _ (fwd_ok _ _ _ _ _ F O1) T).
      specialize (P (conj (Nat.lt_le_trans _ _ _ L1 L4) L2)). apply agree_ok in P.
      destruct P as (m1 & alt1' & -> & P). specialize (Pk m1 q q' T1). rewrite O2 in Pk.
      specialize (Pk L1). apply agree_err in Pk. destruct Pk as (e' & Pk).
      unfold p_bind. rewrite P, Pk. destruct (lmax_opt e' alt1'). exact I.
Qed.

(** ** Alternatives *)

Lemma or_out {A} (p k : parser A) ts :
  (r_errs (p ts) = [] \/ exists e, r_out (k ts) = Err e) ->
  match r_out (p ts), r_out (k ts) with
  | Ok a rest alt, o =>
      exists alt', r_out (p_or p k ts) = Ok a rest alt'
        /\ (r_errs (p ts) <> [] -> forall n, lowo n alt' -> lowo n alt /\ lowo n (branch_alt o))
        /\ (r_errs (p ts) = [] -> alt' = alt)
  | Err e, Ok a rest alt =>
      exists alt', r_out (p_or p k ts) = Ok a rest alt' /\ forall n, lowo n alt' -> lowo n alt /\ n < l_rem e
  | Err e, Err e' =>
      exists e2, r_out (p_or p k ts) = Err e2 /\ forall n, n < l_rem e2 -> n < l_rem e /\ n < l_rem e'
  end.
Proof.
  intros H.
  destruct (p_or_cases p k ts) as
    [(a & rest & alt & He & Ho & X)
    |[N [(a & rest & alt & alt' & c & Ho & He & M & X)
    |[(a & rest & alt & alt' & c & Ho & M & X)
    |(ea & eb & Ha & Hb & X)]]]].
  - rewrite Ho. exists alt. rewrite X. split; [exact Ho|]. split; [congruence|auto].
  - rewrite Ho. exists alt'. rewrite X. split; [reflexivity|]. split; [|congruence].
    intros _ n. apply (lowo_merge n) in M. tauto.
  - destruct (r_out (p ts)) as [a0 r0 alt0|e] eqn:O.
    + exfalso. destruct N as [N|[e N]]; [|discriminate]. destruct H as [H|[e H]]; congruence.
    + rewrite Ho. exists alt'. rewrite X. split; [reflexivity|]. intros n. apply (lowo_merge n) in M.
      cbn [branch_alt lowo] in M. tauto.
  - rewrite Ha, Hb. destruct X as [[-> L]|[[-> L]|(e & c & M & L & ->)]].
    + exists ea. split; [reflexivity|]. intros n. lia.
    + exists eb. split; [reflexivity|]. intros n. lia.
    + exists e. split; [reflexivity|]. intros n. apply lmax_rem in M. lia.
Qed.

Lemma fwd_or {A} (p k : parser A) : fwd p -> fwd k -> fwd (p_or p k).
Proof.
  intros P K ts. specialize (P ts). specialize (K ts).
  destruct (p_or_cases p k ts) as
    [(a & rest & alt & He & Ho & X)
    |[N [(a & rest & alt & alt' & c & Ho & He & M & X)
    |[(a & rest & alt & alt' & c & Ho & M & X)
    |(ea & eb & Ha & Hb & X)]]]].
  - rewrite X. exact P.
  - rewrite X. cbn [r_out]. rewrite Ho in P. exact P.
  - rewrite X. cbn [r_out]. rewrite Ho in K. exact K.
  - rewrite Ha in P. rewrite Hb in K. destruct X as [[-> L]|[[-> L]|(e & c & M & L & ->)]]; cbn [r_out]; auto.
    apply lmax_rem in M. lia.
Qed.

(** Either the first emits no errors or the second fails where the first does not. *)
Definition apart {A} (p k : parser A) : Prop :=
  forall ts, r_errs (p ts) = [] \/ (exists e, r_out (p ts) = Err e) \/ exists e, r_out (k ts) = Err e.

Lemma det_or {A} (p k : parser A) : det p -> det k -> apart p k -> det (p_or p k).
Proof.
  intros P K H.
  assert (forall ts, r_errs (p ts) = [] \/ (exists e, r_out (k ts) = Err e) \/ exists e, r_out (p ts) = Err e)
    as H2 by (intros ts; destruct (H ts) as [|[|]]; auto).
  intros m q q' T L. specialize (P m q q' T). specialize (K m q q' T).
  (* the outcome of [p_or] *)
  assert (forall ts, match r_out (p ts), r_out (k ts) with
    | Ok a rest alt, o =>
        exists alt', r_out (p_or p k ts) = Ok a rest alt'
          /\ (r_errs (p ts) <> [] -> forall n, lowo n alt' -> lowo n alt /\ lowo n (branch_alt o))
          /\ (r_errs (p ts) = [] -> alt' = alt)
    | Err e, Ok a rest alt =>
        exists alt', r_out (p_or p k ts) = Ok a rest alt' /\ forall n, lowo n alt' -> lowo n alt /\ n < l_rem e
    | Err e, Err e' =>
        exists e2, r_out (p_or p k ts) = Err e2 /\ forall n, n < l_rem e2 -> n < l_rem e /\ n < l_rem e'
    end) as O.
  { intros ts. destruct (H2 ts) as [Q|[Q|[e Q]]]; [apply or_out; auto|apply or_out; auto|].
    (* [p] failed: what it emitted does not matter *)
    destruct (p_or_cases p k ts) as
      [(a & rest & alt & He & Ho & X)
      |[N [(a & rest & alt & alt' & c & Ho & He & M & X)
      |[(a & rest & alt & alt' & c & Ho & M & X)
      |(ea & eb & Ha & Hb & X)]]]]; try congruence.
    - rewrite Q in M |- *. rewrite Ho. exists alt'. rewrite X. split; [reflexivity|]. intros n.
      apply (lowo_merge n) in M. cbn [branch_alt lowo] in M. tauto.
    - rewrite Ha, Hb. destruct X as [[-> L']|[[-> L']|(e2 & c & M & L' & ->)]].
      + exists ea. split; [reflexivity|]. intros n. lia.
      + exists eb. split; [reflexivity|]. intros n. lia.
      + exists e2. split; [reflexivity|]. intros n. apply lmax_rem in M. lia. }
  generalize (O (m ++ q)), (O (m ++ q')). clear O.
  destruct (r_out (p (m ++ q))) as [a r alt|e] eqn:Op.
  - intros (alt' & X & Y & Z). rewrite X in *. destruct L as [L1 L2].
    assert (lowo (len q) alt) as L3.
    { destruct (r_errs (p (m ++ q))) eqn:E; [rewrite <- (Z eq_refl); exact L2|].
      apply (Y ltac:(discriminate) _ L2). }
    specialize (P (conj L1 L3)). apply agree_ok in P. destruct P as (m2 & alt2 & -> & ->).
    intros (alt3 & -> & _). apply agree_same.
  - destruct (r_out (k (m ++ q))) as [a r alt|e2] eqn:Ok_.
    + intros (alt' & X & Y). rewrite X in *. destruct L as [L1 L2]. apply Y in L2. destruct L2 as [L2 L3].
      specialize (P L3). apply agree_err in P. destruct P as (e' & ->).
      specialize (K (conj L1 L2)). apply agree_ok in K. destruct K as (m2 & alt2 & -> & ->).
      intros (alt3 & -> & _). apply agree_same.
    + intros (e3 & X & Y). rewrite X in *. apply Y in L. destruct L as [L1 L2].
      specialize (P L1). apply agree_err in P. destruct P as (e' & ->).
      specialize (K L2). apply agree_err in K. destruct K as (e'' & ->).
      intros (e4 & -> & _). exact I.
Qed.

(** When an alternative fails, a later one does not get past the place of the error. *)
Fixpoint kept {A} (ps : list (parser A)) : Prop :=
  match ps with
  | [] => True
  | p :: ps' =>
      (forall ts e k a rest alt, tidy (chars ts) -> r_out (p ts) = Err e -> In k ps' ->
        r_out (k ts) = Ok a rest alt -> len rest <= l_rem e) /\ kept ps'
  end.

Lemma choice_from_in {A} (ps : list (parser A)) ts a rest alt : forall alt0,
  r_out (p_choice_from alt0 ps ts) = Ok a rest alt -> exists k, In k ps /\ r_out (k ts) = Ok a rest alt.
Proof.
  induction ps as [|p ps IH]; intros alt0; cbn [p_choice_from]; [destruct alt0; discriminate|].
  destruct (r_out (p ts)) eqn:O.
  - intros X. exists p. split; [left; reflexivity|]. congruence.
  - destruct (merge_alts alt0 (Some e)) as [alt' c]. cbn [add_crash r_out]. intros X.
    destruct (IH _ X) as (k & K & Y). exists k. split; [right; exact K|exact Y].
Qed.

Lemma choice_from_low {A} (ps : list (parser A)) ts e n : forall alt0,
  r_out (p_choice_from alt0 ps ts) = Err e -> n < l_rem e -> alt0 = None \/ lowo n alt0.
Proof.
  induction ps as [|p ps IH]; intros alt0; cbn [p_choice_from].
  - destruct alt0 as [e0|]; [|auto]. cbn [r_out fail]. intros X L. right. simpl. congruence.
  - destruct (r_out (p ts)) eqn:O; [intros; congruence|].
    destruct (merge_alts alt0 (Some e0)) as [alt' c] eqn:M. cbn [add_crash r_out]. intros X L.
    right. destruct (IH _ X L) as [->|Y].
    + destruct alt0; cbn [merge_alts] in M; [destruct (lmax _ _)|]; discriminate.
    + apply (lowo_merge n) in M. apply M, Y.
Qed.

Lemma det_choice_from {A} (ps : list (parser A)) : Forall det ps -> kept ps -> forall alt alt' m q q',
  tidy (chars (m ++ q)) -> low (len q) (r_out (p_choice_from alt ps (m ++ q))) ->
  agree q q' (r_out (p_choice_from alt ps (m ++ q))) (r_out (p_choice_from alt' ps (m ++ q'))).
Proof.
  induction ps as [|p ps IH]; intros F K alt alt' m q q' T L.
  - cbn [p_choice_from]. destruct alt, alt'; exact I.
  - inversion F as [|? ? P F']; subst. destruct K as [K1 K2]. cbn [p_choice_from] in *.
    specialize (P m q q' T).
    destruct (r_out (p (m ++ q))) as [a r al|e] eqn:O.
    + rewrite O in *. specialize (P L). apply agree_ok in P. destruct P as (m2 & al' & -> & P).
      rewrite P. rewrite P. apply agree_same.
    + destruct (merge_alts alt (Some e)) as [alt1 c1] eqn:M. cbn [add_crash r_out] in *.
      assert (len q < l_rem e) as Le.
      { destruct (r_out (p_choice_from alt1 ps (m ++ q))) as [a r al|e2] eqn:O2.
        - apply choice_from_in in O2. destruct O2 as (k & Ik & Ok_).
          specialize (K1 _ _ _ _ _ _ T O Ik Ok_). destruct L as [L _]. lia.
        - destruct (choice_from_low _ _ _ (len q) _ O2 L) as [->|Y].
          + destruct alt; cbn [merge_alts] in M; [destruct (lmax _ _)|]; discriminate.
          + apply (lowo_merge (len q)) in M. apply M in Y. apply Y. }
      specialize (P Le). apply agree_err in P. destruct P as (e' & P). rewrite P.
      destruct (merge_alts alt' (Some e')) as [alt2 c2]. cbn [add_crash r_out].
      apply IH; assumption.
Qed.

Lemma det_choice {A} (ps : list (parser A)) : Forall det ps -> kept ps -> det (p_choice ps).
Proof. intros F K m q q' T L. apply det_choice_from; assumption. Qed.

Lemma fwd_choice_from {A} (ps : list (parser A)) : Forall fwd ps -> forall alt ts,
  match alt with Some e => l_rem e <= len ts | None => True end ->
  match r_out (p_choice_from alt ps ts) with
  | Ok _ rest _ => suffix rest ts
  | Err e => l_rem e <= len ts
  end.
Proof.
  induction 1 as [|p ps P F IH]; intros alt ts H; cbn [p_choice_from].
  - destruct alt; cbn [fail r_out]; [exact H|]. destruct ts as [|[c s] ts]; simpl; lia.
  - specialize (P ts). destruct (r_out (p ts)) eqn:O; [rewrite O; exact P|].
    destruct (merge_alts alt (Some e)) as [alt1 c] eqn:M. cbn [add_crash r_out]. apply IH.
    destruct alt as [e0|]; cbn [merge_alts] in M.
    + destruct (lmax e e0) as [e1 c1] eqn:X. inversion M; subst. apply lmax_rem in X. lia.
    + inversion M; subst. exact P.
Qed.

Lemma fwd_choice {A} (ps : list (parser A)) : Forall fwd ps -> fwd (p_choice ps).
Proof. intros F ts. apply fwd_choice_from; [exact F|exact I]. Qed.

Lemma apart_quiet {A} (p k : parser A) : quiet p -> apart p k.
Proof. intros Q ts. left. apply Q. Qed.

(** Nothing is low when the inputs share nothing. *)
Lemma low_nil {A} (p : parser A) q : fwd p -> low (len q) (r_out (p q)) -> False.
Proof.
  intros F. specialize (F q). destruct (r_out (p q)); cbn [low]; [apply suffix_len in F|]; lia.
Qed.

(** ** Loops *)

Section Repeat.
Context {A : Type} (p : parser A) (al : nat) (am : option nat).
Hypothesis Hd : D p.
Hypothesis He : eats 1 p.
Hypothesis Ha : al <= 1 \/ noalt p.

Lemma loop_fwd : forall fuel errs outs alt old cr ts,
  match r_out (repeat_loop fuel p al am errs outs alt old cr ts) with
  | Ok _ rest _ => suffix rest ts
  | Err e => l_rem e <= len ts
  end.
Proof.
  destruct Hd as [F _].
  induction fuel as [|fuel IH]; intros errs outs alt old cr ts; cbn [repeat_loop]; [apply suffix_refl|].
  destruct (match am with Some m0 => m0 <=? List.length outs | None => false end); [apply suffix_refl|].
  generalize (F ts). destruct (r_out (p ts)) as [a r a_alt|e].
  - intros S. destruct (merge_alts alt a_alt) as [alt1 c1].
    destruct (match old with Some o => o =? len r | None => false end); [exact S|].
    specialize (IH (errs ++ r_errs (p ts)) (a :: outs) alt1 (Some (len r)) (cr ++ r_crash (p ts) ++ c1) r).
    destruct (r_out (repeat_loop fuel p al am _ _ _ _ _ r)).
    + eapply suffix_trans; eassumption.
    + apply suffix_len in S. lia.
  - intros L. destruct (List.length outs <? al); [exact L|].
    destruct (merge_alts alt (Some e)). apply suffix_refl.
Qed.

Definition fresh (outs : list A) (alt : option located) : Prop := List.length outs < al -> alt = None.

Lemma fresh_step outs alt ts a r a_alt alt1 c : fresh outs alt -> r_out (p ts) = Ok a r a_alt ->
  merge_alts alt a_alt = (alt1, c) -> fresh (a :: outs) alt1.
Proof.
  intros H O M L. cbn [List.length] in L. rewrite (H ltac:(lia)) in M. cbn [merge_alts] in M.
  destruct Ha as [X|X]; [lia|]. rewrite (X _ _ _ _ O) in M. congruence.
Qed.

Lemma loop_low n : forall fuel errs outs alt old cr ts, fresh outs alt ->
  low n (r_out (repeat_loop fuel p al am errs outs alt old cr ts)) -> lowo n alt.
Proof.
  induction fuel as [|fuel IH]; intros errs outs alt old cr ts J; cbn [repeat_loop]; [intros L; apply L|].
  destruct (match am with Some m0 => m0 <=? List.length outs | None => false end); [intros L; apply L|].
  destruct (r_out (p ts)) as [a r a_alt|e] eqn:O.
  - destruct (merge_alts alt a_alt) as [alt1 c1] eqn:M. intros L.
    assert (lowo n alt1) as X.
    { destruct (match old with Some o => o =? len r | None => false end); [apply L|].
      apply IH in L; [exact L|]. eapply fresh_step; eassumption. }
    apply (lowo_merge n) in M. apply M, X.
  - destruct (Nat.ltb_spec (List.length outs) al) as [Q|Q].
    + intros _. rewrite (J Q). exact I.
    + destruct (merge_alts alt (Some e)) as [alt1 c1] eqn:M. intros L. apply (lowo_merge n) in M. apply M, L.
Qed.

Lemma det_loop : forall fuel fuel' errs errs' outs alt alt' old old' cr cr' m q q',
  len (m ++ q) < fuel -> len (m ++ q') < fuel' -> tidy (chars (m ++ q)) ->
  match old with Some o => o = len (m ++ q) | None => True end ->
  match old' with Some o => o = len (m ++ q') | None => True end ->
  fresh outs alt ->
  low (len q) (r_out (repeat_loop fuel p al am errs outs alt old cr (m ++ q))) ->
  agree q q' (r_out (repeat_loop fuel p al am errs outs alt old cr (m ++ q)))
             (r_out (repeat_loop fuel' p al am errs' outs alt' old' cr' (m ++ q'))).
Proof.
  destruct Hd as [F P].
  induction fuel as [|fuel IH]; intros fuel' errs errs' outs alt alt' old old' cr cr' m q q' L1 L2 T O1 O2 J L;
    [lia|]. destruct fuel' as [|fuel']; [lia|]. cbn [repeat_loop] in *.
  destruct (match am with Some m0 => m0 <=? List.length outs | None => false end).
  { cbn [r_out] in *. apply agree_same. }
  specialize (P m q q' T). destruct (r_out (p (m ++ q))) as [a r a_alt|e] eqn:O.
  - destruct (merge_alts alt a_alt) as [alt1 c1] eqn:M.
    assert (S := He _ _ _ _ O).
    assert (match old with Some o => o =? len r | None => false end = false) as E1.
    { destruct old as [o|]; [|reflexivity]. apply Nat.eqb_neq. lia. }
    rewrite E1 in *.
    assert (suffix r (m ++ q)) as Sf by (eapply fwd_ok; eassumption).
    assert (len q < len r) as Lr.
    { generalize (loop_fwd fuel (errs ++ r_errs (p (m ++ q))) (a :: outs) alt1 (Some (len r))
        (cr ++ r_crash (p (m ++ q)) ++ c1) r).
      destruct (r_out (repeat_loop fuel p al am _ _ _ _ _ r)); cbn [low] in L; intros X.
      - apply suffix_len in X. lia.
      - lia. }
    assert (lowo (len q) a_alt) as La.
    { apply loop_low in L; [|eapply fresh_step; eassumption]. apply (lowo_merge (len q)) in M. apply M, L. }
    specialize (P (conj Lr La)). apply agree_ok in P. destruct P as (m1 & a_alt' & -> & P).
    rewrite P. assert (S' := He _ _ _ _ P). destruct (merge_alts alt' a_alt') as [alt2 c2].
    assert (match old' with Some o => o =? len (m1 ++ q') | None => false end = false) as E2.
    { destruct old' as [o|]; [|reflexivity]. apply Nat.eqb_neq. lia. }
    rewrite E2. apply IH; [lia|lia|eapply tidy_rest; eassumption|reflexivity|reflexivity| |exact L].
    exact (fresh_step _ _ _ _ _ _ _ _ J O M).
  - assert (len q < l_rem e) as Le.
    { destruct (Nat.ltb_spec (List.length outs) al); [exact L|].
      destruct (merge_alts alt (Some e)) as [alt1 c1] eqn:M. destruct L as [_ L].
      apply (lowo_merge (len q)) in M. apply M in L. apply L. }
    specialize (P Le). apply agree_err in P. destruct P as (e' & P). rewrite P.
    destruct (List.length outs <? al); [exact I|].
    destruct (merge_alts alt (Some e)), (merge_alts alt' (Some e')). apply agree_same.
Qed.

Lemma fwd_repeat : fwd (p_repeat al am p).
Proof. intros ts. apply loop_fwd. Qed.

Lemma det_repeat : det (p_repeat al am p).
Proof. intros m q q' T L. apply det_loop; try lia; auto. intros _. reflexivity. Qed.
End Repeat.

Section Until.
Context {A : Type} (p : parser A).
Hypothesis Hd : D p.

Lemma until_fwd : forall ts alt outs cr,
  match r_out (until_loop p alt outs cr ts) with
  | Ok _ rest _ => suffix rest ts
  | Err e => l_rem e <= len ts
  end.
Proof.
  destruct Hd as [F _]. induction ts as [|[c s] ts IH]; intros alt outs cr; cbn [until_loop].
  - generalize (F []). destruct (r_out (p [])); [|intros S; exact S]. destruct (merge_alts alt alt0). intros S; exact S.
  - match goal with |- context [r_out (p ?x)] => generalize (F x); destruct (r_out (p x)) as [a r al|e] end.
    + destruct (merge_alts alt al). intros S; exact S.
    + intros L. destruct (merge_alts alt (Some e)) as [alt1 c1].
      match goal with |- context [until_loop p ?x ?y ?z ts] => specialize (IH x y z) end.
      destruct (r_out (until_loop p _ _ _ ts)); [apply suffix_cons, IH|simpl; lia].
Qed.

Lemma until_low n : forall ts alt outs cr, low n (r_out (until_loop p alt outs cr ts)) -> lowo n alt.
Proof.
  destruct Hd as [F _]. induction ts as [|[c s] ts IH]; intros alt outs cr; cbn [until_loop].
  - generalize (F []). destruct (r_out (p [])) as [a r al|e].
    + destruct (merge_alts alt al) as [alt1 c1] eqn:M. intros _ [_ L]. apply (lowo_merge n) in M. apply M, L.
    + simpl. lia.
  - match goal with |- context [r_out (p ?x)] => destruct (r_out (p x)) as [a r al|e] end.
    + destruct (merge_alts alt al) as [alt1 c1] eqn:M. intros [_ L]. apply (lowo_merge n) in M. apply M, L.
    + destruct (merge_alts alt (Some e)) as [alt1 c1] eqn:M. intros L. apply IH in L.
      apply (lowo_merge n) in M. apply M, L.
Qed.

Lemma det_until : forall m q q' alt alt' outs cr cr', tidy (chars (m ++ q)) ->
  low (len q) (r_out (until_loop p alt outs cr (m ++ q))) ->
  agree q q' (r_out (until_loop p alt outs cr (m ++ q))) (r_out (until_loop p alt' outs cr' (m ++ q'))).
Proof.
  destruct Hd as [F P]. induction m as [|x m IH]; intros q q' alt alt' outs cr cr' T L.
  - exfalso. cbn [app] in L. assert (X := until_fwd q alt outs cr). revert L X.
    destruct (r_out (until_loop p alt outs cr q)) as [a r al|e]; cbn [low]; intros L X.
    + apply suffix_len in X. lia.
    + lia.
  - specialize (P (x :: m) q q' T). cbn [app] in *. cbn [until_loop] in *.
    destruct (r_out (p (x :: m ++ q))) as [a r al|e] eqn:O.
    + destruct (merge_alts alt al) as [alt1 c1] eqn:M. cbn [r_out] in *. destruct L as [L1 L2].
      apply (lowo_merge (len q)) in M. apply M in L2. destruct L2 as [_ L2].
      specialize (P (conj L1 L2)). apply agree_ok in P. destruct P as (m1 & al' & -> & P). rewrite P.
      destruct (merge_alts alt' al'). apply agree_same.
    + destruct x as [c s]. destruct (merge_alts alt (Some e)) as [alt1 c1] eqn:M. assert (L2 := L). apply until_low in L2.
      apply (lowo_merge (len q)) in M. apply M in L2. destruct L2 as [_ L2].
      specialize (P L2). apply agree_err in P. destruct P as (e' & P). rewrite P.
      destruct (merge_alts alt' (Some e')) as [alt2 c2]. apply IH; [|exact L].
      apply (tidy_suffix [c]). exact T.
Qed.

Lemma fwd_take_until : fwd (p_take_until p).
Proof. intros ts. apply until_fwd. Qed.

Lemma det_take_until : det (p_take_until p).
Proof. intros m q q' T L. apply det_until; assumption. Qed.
End Until.

Section Separated.
Context {A B : Type} (item : parser A) (d : parser B).
Hypothesis Hi : D item.
Hypothesis Ei : eats 1 item.
Hypothesis Hs : D d.

Lemma sep_or_not_fwd alt ts alt1 r c : sep_or_not d alt ts = (alt1, r, c) -> suffix r ts.
Proof.
  unfold sep_or_not. destruct Hs as [F _]. specialize (F ts).
  destruct (r_out (d ts)) as [b r' al|e]; destruct (merge_alts_list _ _) as [m1 c1]; destruct (merge_alts alt m1);
    intros X; inversion X; subst; first [exact F|apply suffix_refl].
Qed.

Lemma sep_or_not_low n alt ts alt1 r c : sep_or_not d alt ts = (alt1, r, c) -> lowo n alt1 -> lowo n alt.
Proof.
  unfold sep_or_not.
  destruct (r_out (d ts)) as [b r' al|e]; destruct (merge_alts_list _ _) as [m1 c1];
    destruct (merge_alts alt m1) as [m2 c2] eqn:M;
    intros X; inversion X; subst; apply (lowo_merge n) in M; intros L; apply M, L.
Qed.

Lemma sep_or_not_det alt alt' m q q' alt1 r c : tidy (chars (m ++ q)) ->
  sep_or_not d alt (m ++ q) = (alt1, r, c) -> len q < len r -> lowo (len q) alt1 ->
  exists m1 alt1' c', r = m1 ++ q /\ sep_or_not d alt' (m ++ q') = (alt1', m1 ++ q', c').
Proof.
  unfold sep_or_not. destruct Hs as [F P]. specialize (P m q q'). intros T. specialize (P T).
  destruct (r_out (d (m ++ q))) as [b r' al|e] eqn:O; destruct (merge_alts_list _ _) as [m1 c1] eqn:M1;
    destruct (merge_alts alt m1) as [m2 c2] eqn:M; intros X L1 L2; inversion X; subst.
  - assert (lowo (len q) al) as L3.
    { apply (lowo_merge (len q)) in M. apply M in L2. eapply lowo_merge_list; [exact M1|apply L2]. }
    specialize (P (conj L1 L3)). apply agree_ok in P. destruct P as (m3 & al' & -> & ->).
    destruct (merge_alts_list al' _) as [x1 y1]. destruct (merge_alts alt' x1) as [x2 y2]. eauto.
  - assert (lowo (len q) (Some e)) as L3.
    { apply (lowo_merge (len q)) in M. apply M in L2. eapply lowo_merge_list; [exact M1|apply L2]. }
    specialize (P L3). apply agree_err in P. destruct P as (e' & ->).
    destruct (merge_alts_list (Some e') _) as [x1 y1]. destruct (merge_alts alt' x1) as [x2 y2]. eauto.
Qed.

Lemma sep_loop_fwd : forall fuel errs outs alt cr ts errs1 outs1 alt1 ts1 err1 cr1,
  sep_loop fuel item d errs outs alt cr ts = (errs1, outs1, alt1, ts1, err1, cr1) -> suffix ts1 ts.
Proof.
  destruct Hi as [Fi _]. destruct Hs as [Fd _].
  induction fuel as [|fuel IH]; intros errs outs alt cr ts errs1 outs1 alt1 ts1 err1 cr1; cbn [sep_loop];
    [intros X; inversion X; apply suffix_refl|].
  destruct (r_out (d ts)) as [b r al|e] eqn:O; [|intros X; inversion X; apply suffix_refl].
  destruct (merge_alts alt al) as [alt2 c2]. apply (fwd_ok d _ _ _ _ Fd) in O.
  destruct (r_out (item r)) as [a r' al'|e] eqn:O2; [|intros X; inversion X; apply suffix_refl].
  destruct (merge_alts alt2 al') as [alt3 c3]. intros X. apply IH in X. apply (fwd_ok item _ _ _ _ Fi) in O2.
  eapply suffix_trans; [exact X|]. eapply suffix_trans; eassumption.
Qed.

Lemma sep_loop_low n : forall fuel errs outs alt cr ts errs1 outs1 alt1 ts1 err1 cr1,
  sep_loop fuel item d errs outs alt cr ts = (errs1, outs1, alt1, ts1, err1, cr1) -> lowo n alt1 -> lowo n alt.
Proof.
  induction fuel as [|fuel IH]; intros errs outs alt cr ts errs1 outs1 alt1 ts1 err1 cr1; cbn [sep_loop];
    [intros X; inversion X; subst; auto|].
  destruct (r_out (d ts)) as [b r al|e] eqn:O; [|intros X; inversion X; subst; auto].
  destruct (merge_alts alt al) as [alt2 c2] eqn:M. apply (lowo_merge n) in M.
  destruct (r_out (item r)) as [a r' al'|e] eqn:O2.
  - destruct (merge_alts alt2 al') as [alt3 c3] eqn:M2. apply (lowo_merge n) in M2. intros X L.
    apply IH in X; [|exact L]. apply M2 in X. destruct X as [X _]. apply M in X. apply X.
  - intros X L. inversion X; subst. apply M in L. apply L.
Qed.

Lemma sep_loop_det : forall fuel fuel' errs errs' outs alt alt' cr cr' m q q' errs1 outs1 alt1 ts1 err1 cr1,
  len (m ++ q) < fuel -> len (m ++ q') < fuel' -> tidy (chars (m ++ q)) ->
  sep_loop fuel item d errs outs alt cr (m ++ q) = (errs1, outs1, alt1, ts1, err1, cr1) ->
  len q < len ts1 -> lowo (len q) alt1 -> lowo (len q) err1 ->
  exists errs2 alt2 m1 err2 cr2, ts1 = m1 ++ q /\
    sep_loop fuel' item d errs' outs alt' cr' (m ++ q') = (errs2, outs1, alt2, m1 ++ q', err2, cr2).
Proof.
  destruct Hi as [Fi Pi]. destruct Hs as [Fd Pd].
  induction fuel as [|fuel IH]; intros fuel' errs errs' outs alt alt' cr cr' m q q' errs1 outs1 alt1 ts1 err1 cr1
    L1 L2 T; [lia|]. destruct fuel' as [|fuel']; [lia|]. cbn [sep_loop].
  specialize (Pd m q q' T).
  destruct (r_out (d (m ++ q))) as [b r al|e] eqn:O.
  - destruct (merge_alts alt al) as [alt2 c2] eqn:M. apply (lowo_merge (len q)) in M.
    assert (Sd := fwd_ok d _ _ _ _ Fd O).
    assert (Td := tidy_rest _ _ Sd T).
    destruct (r_out (item r)) as [a r' al'|e] eqn:O2.
    + destruct (merge_alts alt2 al') as [alt3 c3] eqn:M2. apply (lowo_merge (len q)) in M2.
      assert (Si := fwd_ok item _ _ _ _ Fi O2). assert (Li := Ei _ _ _ _ O2).
      intros X H1 H2 H3. assert (X1 := X). apply (sep_loop_low (len q)) in X1; [|exact H2].
      apply M2 in X1. destruct X1 as [X1 X2]. apply M in X1. destruct X1 as [_ X1].
      assert (X3 := X). apply sep_loop_fwd, suffix_len in X3.
      assert (len q < len r) as Q1 by (apply suffix_len in Si; lia).
      specialize (Pd (conj Q1 X1)). apply agree_ok in Pd. destruct Pd as (m1 & al1 & -> & Pd). rewrite Pd.
      destruct (merge_alts alt' al1) as [alt2' c2'].
      specialize (Pi m1 q q' Td). rewrite O2 in Pi.
      assert (len q < len r') as Q2 by lia.
      specialize (Pi (conj Q2 X2)). apply agree_ok in Pi. destruct Pi as (m2 & al2 & -> & Pi). rewrite Pi.
      assert (Li' := Ei _ _ _ _ Pi).
      destruct (merge_alts alt2' al2) as [alt3' c3'].
      assert (Sd' := fwd_ok d _ _ _ _ Fd Pd). apply suffix_len in Sd, Sd'.
      eapply IH; [lia|lia|eapply tidy_rest; [exact Si|exact Td]|exact X|exact H1|exact H2|exact H3].
    + intros X H1 H2 H3. inversion X; subst. apply M in H2. destruct H2 as [_ H2].
      assert (Si := fwd_err item _ _ Fi O2). cbn [lowo] in H3.
      assert (len q < len r) as Q1 by lia.
      specialize (Pd (conj Q1 H2)). apply agree_ok in Pd. destruct Pd as (m1 & al1 & -> & Pd). rewrite Pd.
      destruct (merge_alts alt' al1) as [alt2' c2'].
      specialize (Pi m1 q q' Td). rewrite O2 in Pi. specialize (Pi H3).
      apply agree_err in Pi. destruct Pi as (e' & Pi). rewrite Pi.
      do 5 eexists. split; [reflexivity|]. reflexivity.
  - intros X H1 H2 H3. inversion X; subst. specialize (Pd H3). apply agree_err in Pd. destruct Pd as (e' & Pd).
    rewrite Pd. do 5 eexists. split; [reflexivity|]. reflexivity.
Qed.

Lemma fwd_separated : fwd (p_separated item d).
Proof.
  intros ts. unfold p_separated. destruct (sep_or_not d None ts) as [[alt0 ts0] c0] eqn:S0.
  apply sep_or_not_fwd in S0. destruct Hi as [Fi _].
  destruct (r_out (item ts0)) as [a r al|e] eqn:O.
  - destruct (merge_alts alt0 al) as [alt1 c1]. apply (fwd_ok item _ _ _ _ Fi) in O.
    destruct (sep_loop _ _ _ _ _ _ _ _) as [[[[[errs outs] alt2] ts2] err] c2] eqn:L.
    apply sep_loop_fwd in L. destruct (sep_or_not d alt2 ts2) as [[alt3 ts3] c3] eqn:S3.
    apply sep_or_not_fwd in S3. destruct (merge_alts alt3 err) as [alt4 c4]. cbn [r_out].
    eapply suffix_trans; [exact S3|]. eapply suffix_trans; [exact L|]. eapply suffix_trans; eassumption.
  - destruct (merge_alts alt0 (Some e)) as [alt1 c1]. exact S0.
Qed.

Lemma det_separated : det (p_separated item d).
Proof.
  intros m q q' T L. unfold p_separated in *.
  destruct (sep_or_not d None (m ++ q)) as [[alt0 ts0] c0] eqn:S0.
  assert (F0 := sep_or_not_fwd _ _ _ _ _ S0). assert (T0 := tidy_rest _ _ F0 T).
  destruct Hi as [Fi Pi].
  destruct (r_out (item ts0)) as [a r al|e] eqn:O.
  - destruct (merge_alts alt0 al) as [alt1 c1] eqn:M1. assert (F1 := fwd_ok item _ _ _ _ Fi O).
    assert (L1 := Ei _ _ _ _ O). assert (T1 := tidy_rest _ _ F1 T0).
    destruct (sep_loop _ _ _ _ _ _ _ _) as [[[[[errs outs] alt2] ts2] err] c2] eqn:Lp.
    assert (F2 := sep_loop_fwd _ _ _ _ _ _ _ _ _ _ _ _ Lp). assert (T2 := tidy_rest _ _ F2 T1).
    destruct (sep_or_not d alt2 ts2) as [[alt3 ts3] c3] eqn:S3.
    assert (F3 := sep_or_not_fwd _ _ _ _ _ S3).
    destruct (merge_alts alt3 err) as [alt4 c4] eqn:M4. cbn [r_out] in *. destruct L as [L2 L3].
    apply (lowo_merge (len q)) in M4. apply M4 in L3. destruct L3 as [L3 L4].
    assert (L5 := sep_or_not_low _ _ _ _ _ _ S3 L3).
    assert (L6 := sep_loop_low _ _ _ _ _ _ _ _ _ _ _ _ _ Lp L5).
    apply (lowo_merge (len q)) in M1. apply M1 in L6. destruct L6 as [L6 L7].
    generalize (suffix_len _ _ F1), (suffix_len _ _ F2), (suffix_len _ _ F3), (suffix_len _ _ F0).
    intros G1 G2 G3 G0.
    destruct (sep_or_not_det None None m q q' alt0 ts0 c0 T S0 ltac:(lia) L6) as (m0 & alt0' & c0' & -> & S0').
    rewrite S0'. specialize (Pi m0 q q' T0). rewrite O in Pi.
    specialize (Pi (conj (Nat.lt_le_trans _ _ _ L2 (Nat.le_trans _ _ _ G3 G2)) L7)).
    apply agree_ok in Pi. destruct Pi as (m1 & al' & -> & Pi). rewrite Pi.
    assert (L1' := Ei _ _ _ _ Pi). assert (G0' := suffix_len _ _ (sep_or_not_fwd _ _ _ _ _ S0')).
    destruct (merge_alts alt0' al') as [alt1' c1'].
    destruct (sep_loop_det (S (len (m ++ q))) (S (len (m ++ q'))) _ (r_errs (item (m0 ++ q'))) _ _ alt1' _
      (c0' ++ r_crash (item (m0 ++ q')) ++ c1') m1 q q' _ _ _ _ _ _
      ltac:(lia) ltac:(lia) T1 Lp ltac:(lia) L5 L4)
      as (errs2 & alt2' & m2 & err2 & cr2 & -> & Lp').
    rewrite Lp'.
    destruct (sep_or_not_det alt2 alt2' m2 q q' alt3 ts3 c3 T2 S3 L2 L3) as (m3 & alt3' & c3' & -> & S3').
    rewrite S3'. destruct (merge_alts alt3' err2). apply agree_same.
  - destruct (merge_alts alt0 (Some e)) as [alt1 c1] eqn:M1. cbn [r_out] in *. destruct L as [L2 L3].
    apply (lowo_merge (len q)) in M1. apply M1 in L3. destruct L3 as [L3 L4].
    destruct (sep_or_not_det None None m q q' alt0 ts0 c0 T S0 L2 L3) as (m0 & alt0' & c0' & -> & S0').
    rewrite S0'. specialize (Pi m0 q q' T0). rewrite O in Pi. specialize (Pi L4).
    apply agree_err in Pi. destruct Pi as (e' & Pi). rewrite Pi.
    destruct (merge_alts alt0' (Some e')). apply agree_same.
Qed.
End Separated.
