(** Inserting properties one by one gives the property map of the grammar, and
    there is only one such map. *)

From Coq Require Import NArith ZArith PeanoNat List Bool String Lia.
From Verif Require Import Chars Ast Kdl.
Import ListNotations.
Local Open Scope list_scope.

Lemma text_compare_eq a : forall b, text_compare a b = Eq <-> a = b.
Proof.
  induction a as [|x a IH]; destruct b as [|y b]; simpl; try (split; congruence).
  destruct (N.compare_spec x y).
  - subst. rewrite IH. split; congruence.
  - split; [discriminate|]. intros X. inversion X. lia.
  - split; [discriminate|]. intros X. inversion X. lia.
Qed.

Lemma text_compare_antisym a : forall b, text_compare b a = CompOpp (text_compare a b).
Proof.
  induction a as [|x a IH]; destruct b as [|y b]; simpl; auto.
  rewrite (N.compare_antisym x y). destruct (N.compare x y); simpl; auto.
Qed.

Lemma text_compare_trans a : forall b c, text_compare a b = Lt -> text_compare b c = Lt ->
  text_compare a c = Lt.
Proof.
  induction a as [|x a IH]; destruct b as [|y b]; destruct c as [|z c]; simpl; try congruence.
  destruct (N.compare_spec x y); destruct (N.compare_spec y z); subst; try congruence.
  - rewrite N.compare_refl. apply IH.
  - intros. rewrite (proj2 (N.compare_lt_iff y z)); auto.
  - intros. rewrite (proj2 (N.compare_lt_iff x z)); auto.
  - intros. rewrite (proj2 (N.compare_lt_iff x z)); auto. lia.
Qed.

Lemma text_compare_gt a b : text_compare a b = Gt <-> text_compare b a = Lt.
Proof. rewrite (text_compare_antisym a b). destruct (text_compare a b); simpl; split; congruence. Qed.

Lemma text_compare_refl a : text_compare a a = Eq.
Proof. apply text_compare_eq. reflexivity. Qed.

Section Props.
Context {Sp : Type}.

Notation kv := (spanned text Sp * value Sp)%type.

Definition same (n : text) (x : kv) : bool :=
  match text_compare (key_of x) n with Eq => true | _ => false end.

Lemma same_spec n x : same n x = true <-> key_of x = n.
Proof.
  unfold same. rewrite <- text_compare_eq. destruct (text_compare (key_of x) n); split; congruence.
Qed.

Lemma same_false n x : same n x = false <-> key_of x <> n.
Proof. rewrite <- same_spec. destruct (same n x); split; congruence. Qed.

Fixpoint first_key (l : list kv) (n : text) : option (spanned text Sp) :=
  match l with
  | [] => None
  | x :: l' => if same n x then Some (fst x) else first_key l' n
  end.

Fixpoint last_val (l : list kv) (n : text) : option (value Sp) :=
  match l with
  | [] => None
  | x :: l' =>
      match last_val l' n with
      | Some v => Some v
      | None => if same n x then Some (snd x) else None
      end
  end.

Lemma first_key_snoc l x n : first_key (l ++ [x]) n =
  match first_key l n with
  | Some k => Some k
  | None => if same n x then Some (fst x) else None
  end.
Proof. induction l as [|y l IH]; simpl; [reflexivity|]. destruct (same n y); auto. Qed.

Lemma last_val_snoc l x n : last_val (l ++ [x]) n =
  if same n x then Some (snd x) else last_val l n.
Proof.
  induction l as [|y l IH]; simpl; [reflexivity|]. rewrite IH.
  destruct (same n x); [reflexivity|]. reflexivity.
Qed.

Lemma first_key_spec l n k : first_key l n = Some k <->
  exists b v a, l = b ++ (k, v) :: a /\ (forall x, In x b -> key_of x <> n) /\ s_value k = n.
Proof.
  split.
  - induction l as [|y l IH]; simpl; [discriminate|].
    destruct (same n y) eqn:S.
    + intros X. inversion X; subst. exists [], (snd y), l. split; [destruct y; reflexivity|].
      split; [intros x []|]. apply same_spec in S. exact S.
    + intros X. destruct (IH X) as [b [v [a [-> [H K]]]]]. exists (y :: b), v, a.
      split; [reflexivity|]. split; [|exact K]. intros x [<-|I]; [|auto].
      apply same_false in S. exact S.
  - intros [b [v [a [-> [H K]]]]]. induction b as [|y b IH]; simpl.
    + assert (same n (k, v) = true) as -> by (apply same_spec; exact K). reflexivity.
    + assert (same n y = false) as -> by (apply same_false, H; left; reflexivity).
      apply IH. intros x I. apply H. right. exact I.
Qed.

Lemma last_val_none l n : last_val l n = None <-> forall x, In x l -> key_of x <> n.
Proof.
  induction l as [|y l IH]; simpl; [split; [intros _ x []|auto]|].
  destruct (last_val l n) eqn:L.
  - split; [discriminate|]. intros H.
    assert (Some v = None) by (apply IH; intros x I; apply H; auto). discriminate.
  - destruct (same n y) eqn:S.
    + split; [discriminate|]. intros H. exfalso. apply (H y); [auto|]. apply same_spec, S.
    + split; [|auto]. intros _ x [<-|I]; [apply same_false, S|]. apply IH; auto.
Qed.

Lemma last_val_spec l n v : last_val l n = Some v <->
  exists b k a, l = b ++ (k, v) :: a /\ s_value k = n /\ (forall x, In x a -> key_of x <> n).
Proof.
  split.
  - induction l as [|y l IH]; simpl; [discriminate|].
    destruct (last_val l n) eqn:L.
    + intros X. destruct (IH X) as [b [k [a [-> [H K]]]]]. exists (y :: b), k, a. auto.
    + destruct (same n y) eqn:S; [|discriminate]. intros X. inversion X; subst.
      exists [], (fst y), l. split; [destruct y; reflexivity|].
      split; [apply same_spec in S; exact S|]. apply last_val_none. exact L.
  - intros [b [k [a [-> [H K]]]]]. induction b as [|y b IH]; simpl.
    + rewrite (proj2 (last_val_none a n) K).
      assert (same n (k, v) = true) as -> by (apply same_spec; exact H). reflexivity.
    + rewrite IH. reflexivity.
Qed.

Lemma effective_spec l x : effective l x <->
  first_key l (key_of x) = Some (fst x) /\ last_val l (key_of x) = Some (snd x).
Proof.
  rewrite first_key_spec, last_val_spec. unfold effective. split.
  - intros [b1 [v1 [a1 [b2 [k2 [a2 [H1 [H2 [H3 [H4 H5]]]]]]]]]]. split.
    + exists b1, v1, a1. auto.
    + exists b2, k2, a2. auto.
  - intros [[b1 [v1 [a1 [H1 [H2 H3]]]]] [b2 [k2 [a2 [H4 [H5 H6]]]]]].
    exists b1, v1, a1, b2, k2, a2. auto.
Qed.

Lemma first_last_none l n : first_key l n = None <-> last_val l n = None.
Proof.
  induction l as [|y l IH]; simpl; [tauto|].
  destruct (same n y).
  - destruct (last_val l n); split; discriminate.
  - rewrite IH. destruct (last_val l n); split; auto.
Qed.

Lemma increasing_insert k v (m : list kv) : increasing m -> increasing (props_insert k v m).
Proof.
  assert (forall k v m (x : kv), In x (props_insert k v m) ->
    key_of x = s_value k \/ In x m) as K.
  { clear. induction m as [|[k' v'] m IH]; simpl; intros x.
    - intros [<-|[]]; auto.
    - destruct (text_compare (s_value k) (s_value k')) eqn:C.
      + apply text_compare_eq in C. intros [<-|I]; auto. 
      + intros [<-|[<-|I]]; auto.
      + intros [<-|I]; auto. destruct (IH _ I); auto. }
  induction 1 as [|[k' v'] m Inc IH H]; simpl.
  - constructor; [constructor|]. intros x [].
  - destruct (text_compare (s_value k) (s_value k')) eqn:C.
    + constructor; [exact Inc|]. exact H.
    + constructor; [constructor; auto|]. intros x [<-|I]; [exact C|].
      eapply text_compare_trans; [exact C|]. apply (H x I).
    + constructor; [exact IH|]. intros x I. apply K in I. destruct I as [->|I]; [|auto].
      apply text_compare_gt in C. exact C.
Qed.

Lemma insert_in k v (m : list kv) : increasing m -> forall x : kv,
  In x (props_insert k v m) <->
  (key_of x <> s_value k /\ In x m)
  \/ (key_of x = s_value k /\ snd x = v
      /\ ((exists y, In y m /\ key_of y = s_value k /\ fst x = fst y)
          \/ (fst x = k /\ forall y, In y m -> key_of y <> s_value k))).
Proof.
  induction 1 as [|[k' v'] m Inc IH H]; simpl; intros x.
  - split.
    + intros [<-|[]]. right. split; [reflexivity|]. split; [reflexivity|]. right.
      split; [reflexivity|]. intros y [].
    + intros [[_ []]|[E [Ev [[y [[] _]]|[Ek _]]]]]. left. destruct x; simpl in *. subst. reflexivity.
  - destruct (text_compare (s_value k) (s_value k')) eqn:C.
    + apply text_compare_eq in C. split.
      * intros [<-|I].
        -- right. split; [symmetry; exact C|]. split; [reflexivity|]. left.
           exists (k', v'). split; [auto|]. split; [symmetry; exact C|reflexivity].
        -- left. split; [|auto]. intros X. specialize (H x I).
           change (key_of (k', v')) with (s_value k') in H.
           rewrite X, C, text_compare_refl in H. discriminate.
      * intros [[N [<-|I]]|[E [Ev [[y [[<-|I] [Ey Ek]]]|[Ek N]]]]].
        -- exfalso. apply N. symmetry. exact C.
        -- (left; reflexivity) || (right; assumption).
        -- left. destruct x; simpl in *. subst. reflexivity.
        -- exfalso. specialize (H y I). change (key_of (k', v')) with (s_value k') in H.
           rewrite Ey, C, text_compare_refl in H. discriminate.
        -- exfalso. apply (N (k', v')); [auto|]. symmetry. exact C.
    + assert (forall y, In y ((k', v') :: m) -> key_of y <> s_value k) as Nk.
      { intros y [<-|I] X.
        - unfold key_of in X. cbn [fst] in X. rewrite X, text_compare_refl in C. discriminate.
        - specialize (H y I). change (key_of (k', v')) with (s_value k') in H.
          pose proof (text_compare_trans _ _ _ C H) as T. rewrite X, text_compare_refl in T.
          discriminate. }
      split.
      * intros [<-|I].
        -- right. split; [reflexivity|]. split; [reflexivity|]. right. split; [reflexivity|].
           exact Nk.
        -- left. split; [apply Nk; exact I|exact I].
      * intros [[N I]|[E [Ev [[y [I [Ey Ek]]]|[Ek N]]]]].
        -- right. exact I.
        -- exfalso. apply (Nk y I Ey).
        -- left. destruct x; simpl in *. subst. reflexivity.
    + assert (s_value k' <> s_value k) as Nk.
      { intros X. rewrite X, text_compare_refl in C. discriminate. }
      split.
      * intros [<-|I].
        -- left. auto.
        -- apply IH in I. destruct I as [[N I]|[E [Ev [[y [I [Ey Ek]]]|[Ek N]]]]].
           ++ left. auto.
           ++ right. split; [exact E|]. split; [exact Ev|]. left. exists y. auto.
           ++ right. split; [exact E|]. split; [exact Ev|]. right. split; [exact Ek|].
              intros y [<-|I]; [exact Nk|auto].
      * intros [[N [<-|I]]|[E [Ev [[y [[<-|I] [Ey Ek]]]|[Ek N]]]]].
        -- (left; reflexivity) || (right; assumption).
        -- right. apply IH. left. auto.
        -- contradiction.
        -- right. apply IH. right. split; [exact E|]. split; [exact Ev|]. left. exists y. auto.
        -- right. apply IH. right. split; [exact E|]. split; [exact Ev|]. right.
           split; [exact Ek|]. intros y I. apply N. auto.
Qed.

Lemma property_map_nil : @property_map Sp [] [].
Proof.
  split; [constructor|]. intros x. split; [intros []|].
  rewrite effective_spec. intros [H _]. discriminate.
Qed.

Lemma property_map_snoc (l m : list kv) k v : property_map l m ->
  property_map (l ++ [(k, v)]) (props_insert k v m).
Proof.
  intros [Inc H]. split; [apply increasing_insert, Inc|]. intros x.
  rewrite (insert_in k v m Inc), effective_spec, first_key_snoc, last_val_snoc.
  destruct (same (key_of x) (k, v)) eqn:S.
  - apply same_spec in S. change (key_of (k, v)) with (s_value k) in S. cbn [fst snd].
    split.
    + intros [[N _]|[E [Ev [[y [I [Ey Ek]]]|[Ek N]]]]].
      * congruence.
      * apply H, effective_spec in I. destruct I as [I _]. rewrite Ey, S in I. rewrite I.
        split; congruence.
      * split; [|congruence]. destruct (first_key l (key_of x)) eqn:Fk; [|congruence].
        exfalso. destruct (last_val l (key_of x)) eqn:Lv.
        -- apply (N (s, v0)).
           ++ apply H, effective_spec. apply first_key_spec in Fk as Fk2.
              destruct Fk2 as [_ [_ [_ [_ [_ K]]]]].
              change (key_of (s, v0)) with (s_value s). rewrite K. auto.
           ++ apply first_key_spec in Fk. destruct Fk as [_ [_ [_ [_ [_ K]]]]].
              unfold key_of at 1. cbn [fst]. congruence.
        -- apply first_last_none in Lv. congruence.
    + intros [A B]. right. split; [auto|]. split; [congruence|].
      destruct (first_key l (key_of x)) eqn:Fk.
      * left. destruct (last_val l (key_of x)) eqn:Lv.
        -- exists (s, v0). apply first_key_spec in Fk as Fk2.
           destruct Fk2 as [_ [_ [_ [_ [_ K]]]]].
           split; [|split; [unfold key_of at 1; cbn [fst]; congruence|cbn [fst]; congruence]].
           apply H, effective_spec. change (key_of (s, v0)) with (s_value s). rewrite K. auto.
        -- apply first_last_none in Lv. congruence.
      * right. split; [congruence|]. intros y I X. apply H, effective_spec in I.
        destruct I as [I _]. rewrite X, S in I. congruence.
  - apply same_false in S. change (key_of (k, v)) with (s_value k) in S.
    assert (match first_key l (key_of x) with Some k0 => Some k0 | None => None end
      = first_key l (key_of x)) as -> by (destruct (first_key l (key_of x)); reflexivity).
    rewrite <- effective_spec, <- H. split.
    + intros [[_ I]|[E _]]; [exact I|congruence].
    + intros I. left. split; [congruence|exact I].
Qed.

Lemma property_map_fold (l : list kv) : forall l0 m, property_map l0 m ->
  property_map (l0 ++ l) (fold_left (fun m x => props_insert (fst x) (snd x) m) l m).
Proof.
  induction l as [|[k v] l IH]; intros l0 m H; cbn [fold_left].
  - rewrite app_nil_r. exact H.
  - replace (l0 ++ (k, v) :: l) with ((l0 ++ [(k, v)]) ++ l) by (rewrite <- app_assoc; reflexivity).
    apply IH. apply property_map_snoc. exact H.
Qed.

Lemma increasing_unique (a b : list kv) : increasing a -> increasing b ->
  (forall x, In x a <-> In x b) -> a = b.
Proof.
  intros Ia. revert b. induction Ia as [|x a Ia IH Hx]; intros b Ib H.
  - destruct b as [|y b]; [reflexivity|]. exfalso. apply (H y). left. reflexivity.
  - destruct Ib as [|y b Ib Hy].
    { exfalso. apply (H x). left. reflexivity. }
    assert (x = y) as ->.
    { destruct (proj1 (H x)) as [E|I]; [left; reflexivity|auto|].
      destruct (proj2 (H y)) as [E|J]; [left; reflexivity|auto|].
      pose proof (text_compare_trans _ _ _ (Hy x I) (Hx y J)) as T.
      rewrite text_compare_refl in T. discriminate. }
    f_equal. apply IH; [exact Ib|]. intros z. split; intros I.
    + destruct (proj1 (H z)) as [E|J]; [right; exact I| |exact J].
      subst. specialize (Hx z I). rewrite text_compare_refl in Hx. discriminate.
    + destruct (proj2 (H z)) as [E|J]; [right; exact I| |exact J].
      subst. specialize (Hy z I). rewrite text_compare_refl in Hy. discriminate.
Qed.

Lemma property_map_unique (l m m' : list kv) : property_map l m -> property_map l m' -> m = m'.
Proof.
  intros [I H] [I' H']. apply increasing_unique; auto. intros x. rewrite H, H'. reflexivity.
Qed.

End Props.
