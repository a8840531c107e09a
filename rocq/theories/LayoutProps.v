(** Consequences of [render_means]: layout, slashdash, order of properties. *)

From Coq Require Import NArith PeanoNat List Bool String Lia Permutation.
From Coq Require Import ZifyBool.
From Verif Require Import Chars Ast Errors Chumsky Spans Grammar Kdl KdlText KdlChars Layout Good
  LexSpace LexLit LexIdent PropMap Erase Meaning LayoutMeans PrintMeans Observe.
Import ListNotations.
Local Open Scope list_scope.

Lemma content_exists d : exists D, content d D.
Proof. apply (proj2 (proj2 content_ex)). Qed.

Lemma same_content d1 d2 D : wf d1 -> wf d2 -> content d1 D -> content d2 D ->
  read_alike (render d1) (render d2).
Proof.
  intros W1 W2 C1 C2.
  destruct (render_parse_span _ _ W1 C1) as [a1 [P1 <-]].
  destruct (render_parse_span _ _ W2 C2) as [a2 [P2 E2]].
  exists a1, a2. auto.
Qed.

(** ** Layout *)

Lemma relaid_items l l' : Forall2 (fun a b => relaid_item (snd a) (snd b)) l l' ->
  item_args l = item_args l' /\ item_props l = item_props l'.
Proof.
  induction 1 as [|[g i] [g' i'] l l' H _ [IH1 IH2]]; [split; reflexivity|].
  cbn [snd] in H. unfold item_args, item_props in *. cbn [flat_map snd].
  rewrite IH1, IH2. destruct H; split; reflexivity.
Qed.

Scheme relaid_node_mut := Minimality for relaid_node Sort Prop
  with relaid_children_mut := Minimality for relaid_children Sort Prop
  with relaid_list_mut := Minimality for relaid_list Sort Prop.
Combined Scheme relaid_mut from relaid_node_mut, relaid_children_mut, relaid_list_mut.

Lemma relaid_content :
  (forall n n', relaid_node n n' -> forall c, node_content n c -> node_content n' c)
  /\ (forall h h', relaid_children h h' -> forall c, children_content h c -> children_content h' c)
  /\ (forall l l', relaid_list l l' -> forall c, list_content l c -> list_content l' c).
Proof.
  apply relaid_mut.
  - intros ty ns nm items items' ch ch' g g' t t' I _ IH c C.
    apply relaid_items in I. destruct I as [A P].
    inversion C as [y1 y2 y3 y4 y5 y6 y7 ps c' Pm Cc]; subst. rewrite A. constructor; auto.
    rewrite <- P. exact Pm.
  - intros c C. exact C.
  - intros g g' lg lg' l l' _ IH c C. inversion C; subst. constructor. auto.
  - intros g g' sg sg' lg lg' l l' _ IH c C. inversion C; subst. constructor.
  - intros c C. exact C.
  - intros n n' lg lg' l l' _ IHn _ IHl c C. inversion C; subst. constructor; auto.
  - intros g g' n n' lg lg' l l' _ IHn _ IHl c C. inversion C; subst. constructor; auto.
Qed.

Theorem relaid_alike d d' : relaid d d' -> wf d -> wf d' -> read_alike (render d) (render d').
Proof.
  intros R W W'. destruct (content_exists d) as [D C].
  apply (same_content d d' D); auto. apply (proj2 (proj2 relaid_content) _ _ R), C.
Qed.

(** ** Slashdash *)

Lemma remove_items_wf l : wf_items l -> wf_items (remove_items l).
Proof.
  unfold wf_items, remove_items. intros H. rewrite Forall_forall in *. intros x X.
  apply filter_In in X. apply H, X.
Qed.

Lemma wf_node_last last n : wf_node false n -> wf_node last n.
Proof.
  intros H. inversion H as [x0 ty ns nm items ch g t T Nm I C G Wt E]; subst.
  constructor; auto. intros X. discriminate (E X).
Qed.

Lemma wf_node_weaken (a b : bool) n : (a = true -> b = true) -> wf_node a n -> wf_node b n.
Proof.
  intros H W. destruct a; [rewrite (H eq_refl); exact W|]. apply wf_node_last, W.
Qed.

Lemma remove_wf :
  (forall n last, wf_node last n -> wf_node last (remove_node n))
  /\ (forall ch, wf_children ch -> wf_children (remove_children ch))
  /\ (forall l top, wf_list top l -> wf_list top (remove_list l)).
Proof.
  apply d_mut.
  - intros ty ns nm items ch IH g t last H.
    inversion H as [x0 x1 x2 x3 x4 x5 x6 x7 T Nm I C G Wt E]; subst. cbn [remove_node].
    constructor; auto. apply remove_items_wf, I.
  - intros W. exact W.
  - intros g lg l IH W. inversion W; subst. cbn [remove_children]. constructor; auto.
  - intros g sg lg l IH W. constructor.
  - intros top W. exact W.
  - intros skip n IHn lg l IHl top W. inversion W as [|x1 x2 x3 x4 x5 Sk Wn LG L]; subst.
    destruct skip as [g|]; cbn [remove_list]; [apply IHl, L|].
    constructor; auto. apply IHn. eapply wf_node_weaken; [|exact Wn].
    destruct top; [|auto]. cbn [andb]. destruct lg; [|auto]. destruct l; [auto|discriminate].
Qed.

Lemma remove_items_same l :
  item_args (remove_items l) = item_args l /\ item_props (remove_items l) = item_props l.
Proof.
  induction l as [|[g i] l [IH1 IH2]]; [split; reflexivity|].
  unfold remove_items in *. unfold item_args, item_props in *. cbn [filter snd flat_map].
  destruct i; cbn [flat_map snd]; rewrite ?IH1, ?IH2; split; reflexivity.
Qed.

Lemma remove_content :
  (forall n c, node_content n c -> node_content (remove_node n) c)
  /\ (forall ch c, children_content ch c -> children_content (remove_children ch) c)
  /\ (forall l c, list_content l c -> list_content (remove_list l) c).
Proof.
  apply d_mut.
  - intros ty ns nm items ch IH g t c C.
    inversion C as [y1 y2 y3 y4 y5 y6 y7 ps c' Pm Cc]; subst. cbn [remove_node].
    destruct (remove_items_same items) as [A P]. rewrite <- A. constructor; auto.
    rewrite P. exact Pm.
  - intros c C. exact C.
  - intros g lg l IH c C. inversion C; subst. cbn [remove_children]. constructor; auto.
  - intros g sg lg l IH c C. inversion C; subst. constructor.
  - intros c C. exact C.
  - intros skip n IHn lg l IHl c C. inversion C; subst; cbn [remove_list]; auto.
    constructor; auto.
Qed.

Theorem removed_alike d : wf d ->
  wf (remove_skipped d) /\ read_alike (render d) (render (remove_skipped d)).
Proof.
  intros [LG L]. assert (wf (remove_skipped d)) as W.
  { split; [exact LG|]. apply (proj2 (proj2 remove_wf)), L. }
  split; [exact W|]. destruct (content_exists d) as [D C].
  apply (same_content _ _ D); auto; [split; assumption|].
  apply (proj2 (proj2 remove_content)), C.
Qed.

(** ** Order of properties *)

Section Perm.
Context {Sp : Type}.
Notation kv := (spanned text Sp * value Sp)%type.

Lemma nodup_effective (l : list kv) : NoDup (map key_of l) -> forall x, effective l x <-> In x l.
Proof.
  intros N [k v]. split.
  - intros [b1 [v1 [a1 [b2 [k2 [a2 [Q1 [N1 [Q2 [K2 N2]]]]]]]]]]. cbn [fst snd] in *.
    assert (In (k, v1) l) as I1 by (rewrite Q1; apply in_elt).
    assert (In (k2, v) l) as I2 by (rewrite Q2; apply in_elt).
    assert (forall x y : kv, In x l -> In y l -> key_of x = key_of y -> x = y) as U.
    { clear -N. induction l as [|z l IH]; [intros x y []|]. cbn [map] in N.
      inversion N as [|z0 l0 Nz Nl]; subst. intros x y [->|X] [->|Y] K; auto.
      - destruct Nz. rewrite K. apply in_map, Y.
      - destruct Nz. rewrite <- K. apply in_map, X. }
    assert ((k, v1) = (k2, v)) as X by (apply U; auto). injection X as <- <-. exact I1.
  - intros I. apply in_split in I. destruct I as [a [b Q]].
    exists a, v, b, a, k, b. subst l. rewrite map_app in N. cbn [map] in N.
    apply NoDup_remove_2 in N.
    assert (forall x, In x a \/ In x b -> key_of x <> key_of (k, v)) as D.
    { intros x X K. apply N. rewrite <- K. rewrite <- map_app. apply in_map, in_or_app, X. }
    split; [reflexivity|]. split; [auto|]. split; [reflexivity|]. split; [reflexivity|]. auto.
Qed.

Lemma permuted_map (l l' m : list kv) : Permutation l l' -> NoDup (map key_of l) ->
  property_map l m -> property_map l' m.
Proof.
  intros P N [I M]. split; [exact I|]. intros x. rewrite M, (nodup_effective l N).
  rewrite nodup_effective.
  - split; apply Permutation_in; [exact P|apply Permutation_sym, P].
  - eapply Permutation_NoDup; [|exact N]. apply Permutation_map, P.
Qed.

End Perm.

Scheme reordered_node_mut := Minimality for reordered_node Sort Prop
  with reordered_children_mut := Minimality for reordered_children Sort Prop
  with reordered_list_mut := Minimality for reordered_list Sort Prop.
Combined Scheme reordered_mut from reordered_node_mut, reordered_children_mut,
  reordered_list_mut.

Lemma reordered_content :
  (forall n n', reordered_node n n' -> forall c, node_content n c -> node_content n' c)
  /\ (forall h h', reordered_children h h' ->
        forall c, children_content h c -> children_content h' c)
  /\ (forall l l', reordered_list l l' -> forall c, list_content l c -> list_content l' c).
Proof.
  apply reordered_mut.
  - intros ty ns nm items items' ch ch' g t A P N _ IH c C.
    inversion C as [y1 y2 y3 y4 y5 y6 y7 ps c' Pm Cc]; subst. rewrite A. constructor; auto.
    eapply permuted_map; eassumption.
  - intros c C. exact C.
  - intros g lg l l' _ IH c C. inversion C; subst. constructor. auto.
  - intros g sg lg l l' _ IH c C. inversion C; subst. constructor.
  - intros c C. exact C.
  - intros skip n n' lg l l' _ IHn _ IHl c C. inversion C; subst; constructor; auto.
Qed.

Theorem reordered_alike d d' : reordered d d' -> wf d -> wf d' ->
  read_alike (render d) (render d').
Proof.
  intros [_ R] W W'. destruct (content_exists d) as [D C].
  apply (same_content d d' D); auto. apply (proj2 (proj2 reordered_content) _ _ R), C.
Qed.
