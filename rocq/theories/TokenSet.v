(** The sets of expected tokens. *)

From Coq Require Import NArith PeanoNat List Bool String Sorted Lia.
From Verif Require Import Chars Ast Errors Chumsky Spans Kdl PropMap ErrSpec.
Import ListNotations.

Lemma text_before_iff a : forall b, text_compare a b = Lt <-> text_before a b.
Proof.
  induction a as [|x a IH]; destruct b as [|y b]; cbn [text_compare].
  - split; [discriminate|inversion 1].
  - split; [constructor|reflexivity].
  - split; [discriminate|inversion 1].
  - destruct (N.compare_spec x y) as [->|L|L].
    + rewrite IH. split; [intros; apply TB_later; assumption|inversion 1; subst; [lia|assumption]].
    + split; [intros; apply TB_first; assumption|reflexivity].
    + split; [discriminate|inversion 1; subst; lia].
Qed.

Lemma key_compare a b : token_compare a b =
  match Nat.compare (fst (token_key a)) (fst (token_key b)) with
  | Eq => text_compare (snd (token_key a)) (snd (token_key b))
  | c => c
  end.
Proof.
  destruct a, b; try reflexivity; cbn.
  - destruct (N.compare c c0); reflexivity.
  - rewrite Nat2N.inj_compare. destruct (N.compare _ _); reflexivity.
  - rewrite Nat2N.inj_compare. destruct (N.compare _ _); reflexivity.
Qed.

Lemma key_inj a b : token_key a = token_key b -> a = b.
Proof.
  destruct a, b; cbn; intros H; try discriminate; try reflexivity; injection H as H; subst; auto;
    apply Nat2N.inj in H; subst; auto.
Qed.

Lemma compare_lt a b : token_compare a b = Lt <-> before a b.
Proof.
  rewrite key_compare. unfold before. destruct (Nat.compare_spec (fst (token_key a)) (fst (token_key b))).
  - rewrite text_before_iff. split; [auto|]. intros [K|[_ K]]; [lia|exact K].
  - split; auto.
  - split; [discriminate|]. intros [K|[K _]]; lia.
Qed.

Lemma compare_eq a b : token_compare a b = Eq <-> a = b.
Proof.
  rewrite key_compare. split.
  - intros H. apply key_inj.
    destruct (Nat.compare_spec (fst (token_key a)) (fst (token_key b))); try discriminate.
    apply text_compare_eq in H. destruct (token_key a), (token_key b); cbn in *; congruence.
  - intros ->. rewrite Nat.compare_refl. apply text_compare_refl.
Qed.

Lemma compare_gt a b : token_compare a b = Gt <-> before b a.
Proof.
  rewrite <- compare_lt, !key_compare.
  rewrite (Nat.compare_antisym (fst (token_key a))), (text_compare_antisym (snd (token_key a))).
  destruct (Nat.compare (fst (token_key a)) (fst (token_key b)));
    [destruct (text_compare (snd (token_key a)) (snd (token_key b)))| |];
    cbn; split; congruence.
Qed.

Lemma text_before_trans a : forall b c, text_before a b -> text_before b c -> text_before a c.
Proof. intros b c. rewrite <- !text_before_iff. apply text_compare_trans. Qed.

Lemma before_trans a b c : before a b -> before b c -> before a c.
Proof.
  unfold before. intros [H|[H H']] [K|[K K']]; try (left; lia).
  right. split; [lia|]. eapply text_before_trans; eassumption.
Qed.

Lemma before_irrefl a : ~ before a a.
Proof. rewrite <- compare_lt. rewrite (proj2 (compare_eq a a) eq_refl). discriminate. Qed.

Lemma insert_in_set k s x : In x (set_insert k s) <-> x = k \/ In x s.
Proof.
  induction s as [|y s IH]; cbn [set_insert In].
  - split; intros [H|[]]; auto.
  - destruct (token_compare k y) eqn:C; cbn [In].
    + apply compare_eq in C as ->. split; [tauto|intros [->|]; tauto].
    + split; intros [H|H]; auto.
    + rewrite IH. tauto.
Qed.

Lemma insert_sorted k s : StronglySorted before s -> StronglySorted before (set_insert k s).
Proof.
  induction 1 as [|y s S IH F]; cbn [set_insert].
  - constructor; constructor.
  - destruct (token_compare k y) eqn:C.
    + constructor; assumption.
    + apply compare_lt in C. constructor; [constructor; assumption|]. constructor; [exact C|].
      eapply Forall_impl; [|exact F]. intros z. apply before_trans, C.
    + apply compare_gt in C. constructor; [exact IH|]. apply Forall_forall. intros z Z.
      apply insert_in_set in Z as [->|Z]; [exact C|]. rewrite Forall_forall in F. auto.
Qed.

Lemma extend_in l : forall s x, In x (set_extend s l) <-> In x s \/ In x l.
Proof.
  induction l as [|k l IH]; intros s x; cbn [set_extend fold_left In]; [tauto|].
  fold (set_extend (set_insert k s) l). rewrite IH, insert_in_set. intuition congruence.
Qed.

Lemma extend_sorted l : forall s, StronglySorted before s -> StronglySorted before (set_extend s l).
Proof.
  induction l as [|k l IH]; intros s S; cbn [set_extend fold_left]; [exact S|].
  apply IH, insert_sorted, S.
Qed.

Lemma sorted_unique a : StronglySorted before a -> forall b, StronglySorted before b ->
  (forall x, In x a <-> In x b) -> a = b.
Proof.
  induction 1 as [|x a S IH F]; intros b Sb E.
  - destruct b as [|y b]; [reflexivity|]. destruct (proj2 (E y)). left; reflexivity.
  - destruct Sb as [|y b Sb Fb]; [destruct (proj1 (E x)); left; reflexivity|].
    rewrite Forall_forall in F, Fb.
    assert (x = y) as <-.
    { destruct (proj1 (E x)) as [K|K]; [left; reflexivity|auto|].
      destruct (proj2 (E y)) as [L|L]; [left; reflexivity|auto|].
      destruct (before_irrefl x). eapply before_trans; [apply F, L|apply Fb, K]. }
    f_equal. apply IH; [exact Sb|]. intros z. split; intros Z.
    + destruct (proj1 (E z) (or_intror Z)) as [<-|K]; [|exact K].
      destruct (before_irrefl x). apply F, Z.
    + destruct (proj2 (E z) (or_intror Z)) as [<-|K]; [|exact K].
      destruct (before_irrefl x). apply Fb, Z.
Qed.

Lemma tidy_nil : tidy [].
Proof. split; constructor. Qed.

Lemma tidy_one k : nameable k -> tidy [k].
Proof. split; repeat constructor. exact H. Qed.

Lemma tidy_extend s l : tidy s -> Forall nameable l -> tidy (set_extend s l).
Proof.
  intros [S N] L. split; [apply extend_sorted, S|]. rewrite Forall_forall in *.
  intros x X. apply extend_in in X as [X|X]; auto.
Qed.

Lemma tidy_of l : tidy (set_extend [] (map token_of l)).
Proof.
  apply tidy_extend; [apply tidy_nil|]. apply Forall_map, Forall_forall. intros [c|] _; exact I.
Qed.
