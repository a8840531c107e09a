(** Block comments. *)

From Coq Require Import NArith PeanoNat List Bool String Lia.
From Coq Require Import ZifyBool.
From Verif Require Import Chars Ast Errors Chumsky Spans Grammar DocSafe Kdl KdlText KdlChars
  Layout Comment Good GrammarNear LexSpace LexLit LexIdent PropMap Items Nodes NodesComplete Erase
  Meaning LayoutMeans PrintMeans Observe LayoutProps Template LexProps.
Import ListNotations.
Local Open Scope list_scope.

Lemma scan_eq d a b t : scan (S d) (a :: b :: t) =
  if ((a =? 0x2F) && (b =? 0x2A))%N then scan (S (S d)) t
  else if ((a =? 0x2A) && (b =? 0x2F))%N then scan d t
  else scan (S d) (b :: t).
Proof. reflexivity. Qed.

Lemma scan_zero t : scan 0 t = Some t.
Proof. destruct t; reflexivity. Qed.

Lemma scan_one d a : scan (S d) [a] = None.
Proof. reflexivity. Qed.

Scheme block_mut := Minimality for block Sort Prop
  with block_rest_mut := Minimality for block_rest Sort Prop.
Combined Scheme block_both from block_mut, block_rest_mut.

Lemma block_rest_ne b t : block_rest b t -> t <> [].
Proof.
  destruct 1 as [|s t H _|c t _ _ _|t _ _]; try discriminate.
  apply block_hd in H. destruct H as [u ->]. discriminate.
Qed.

Lemma block_scan :
  (forall s, block true s -> forall d r, scan (S d) (s ++ r) = scan (S d) r)
  /\ (forall t, block_rest true t -> forall d r, scan (S d) (t ++ r) = scan d r).
Proof.
  apply block_both.
  - intros t _ IH d r. cbn [str app]. cbn [String.string_rect].
    change (str "/*" ++ t) with (0x2F%N :: 0x2A%N :: t). cbn [app]. rewrite scan_eq. cbn.
    apply IH.
  - intros d r. change (str "*/") with [0x2A%N; 0x2F%N]. cbn [app]. rewrite scan_eq. reflexivity.
  - intros s t _ IH1 _ IH2 d r. rewrite <- app_assoc, IH1. apply IH2.
  - intros c t H IH C Cs d r. pose proof (block_rest_ne _ _ H) as Ne.
    destruct t as [|b t]; [congruence|]. cbn [app]. rewrite scan_eq.
    assert (((c =? 0x2F) && (b =? 0x2A))%N = false) as ->.
    { destruct ((c =? 0x2F)%N) eqn:X; [|reflexivity]. apply N.eqb_eq in X.
      specialize (Cs eq_refl X). apply N.eqb_neq. intros ->. apply Cs. reflexivity. }
    assert (((c =? 0x2A) && (b =? 0x2F))%N = false) as -> by lia.
    apply (IH d r).
  - intros t H IH Nh d r. pose proof (block_rest_ne _ _ H) as Ne.
    destruct t as [|b t]; [congruence|]. cbn [app]. rewrite scan_eq. 
    assert (b <> 0x2F%N) by (intros ->; apply Nh; reflexivity).
    assert (((0x2A =? 0x2F) && (b =? 0x2A))%N = false) as -> by lia.
    assert (((0x2A =? 0x2A) && (b =? 0x2F))%N = false) as -> by lia.
    apply (IH d r).
Qed.

Lemma scan_block : forall n u d r, List.length u <= n -> scan (S d) u = Some r ->
  exists u1 u2, u = u1 ++ u2 /\ block_rest true u1 /\ scan d u2 = Some r.
Proof.
  induction n as [|n IH]; intros u d r L H.
  - destruct u; [discriminate|cbn in L; lia].
  - destruct u as [|a [|b t]]; [discriminate|discriminate|]. rewrite scan_eq in H. cbn in L.
    destruct ((a =? 0x2F) && (b =? 0x2A))%N eqn:X.
    + assert (a = 0x2F /\ b = 0x2A)%N as [-> ->] by lia.
      destruct (IH t (S d) r) as [u1 [u2 [-> [B1 H1]]]]; [lia|exact H|].
      rewrite app_length in L.
      destruct (IH u2 d r) as [u3 [u4 [-> [B2 H2]]]]; [lia|exact H1|].
      exists ((0x2F%N :: 0x2A%N :: u1) ++ u3), u4. rewrite <- app_assoc. split; [reflexivity|].
      split; [|exact H2]. apply BR_nested; [|exact B2]. apply (Block true u1), B1.
    + destruct ((a =? 0x2A) && (b =? 0x2F))%N eqn:Y.
      * assert (a = 0x2A /\ b = 0x2F)%N as [-> ->] by lia.
        exists [0x2A%N; 0x2F%N], t. split; [reflexivity|]. split; [apply BR_end|exact H].
      * destruct (IH (b :: t) d r) as [u1 [u2 [Q [B1 H1]]]]; [cbn; lia|exact H|].
        pose proof (block_rest_ne _ _ B1) as Ne. destruct u1 as [|b' u1]; [congruence|].
        cbn in Q. injection Q as <- ->.
        exists (a :: b :: u1), u2. split; [reflexivity|]. split; [|exact H1].
        destruct (N.eqb a 0x2A) eqn:Z.
        -- apply N.eqb_eq in Z. subst a. apply BR_star; [exact B1|]. cbn.
           intros W. injection W as ->. discriminate.
        -- apply BR_char; [exact B1|lia|]. intros _ -> W. cbn in W. injection W as ->.
           discriminate.
Qed.

Theorem nested_block s : nested_comment s <-> block true s.
Proof.
  split.
  - intros [u [-> H]]. destruct (scan_block _ u 0 [] (le_n _) H) as [u1 [u2 [-> [B H1]]]].
    rewrite scan_zero in H1. injection H1 as ->. rewrite app_nil_r. constructor. exact B.
  - intros [t B]. exists t. split; [reflexivity|].
    rewrite <- (app_nil_r t). rewrite (proj2 block_scan t B 0 []). reflexivity.
Qed.

(** ** Comments as spaces *)

Lemma blank_welem_wf w : wf_welem w -> wf_welem (blank_welem w).
Proof. destruct w; cbn; auto. Qed.

Lemma blank_gap_wf g : wf_gap g -> wf_gap (blank_gap g).
Proof.
  intros [W H]. split.
  - unfold blank_gap. apply Forall_map. eapply Forall_impl; [|exact W].
    intros [w|ws cm nl]; cbn [wf_gelem].
    + apply blank_welem_wf.
    + intros [Ws R]. split; [|exact R]. apply Forall_map. eapply Forall_impl; [|exact Ws].
      apply blank_welem_wf.
  - destruct g as [|[[c|s]|ws cm nl] g]; cbn in *; auto; discriminate.
Qed.

Lemma blank_gap_ne g : g <> [] -> blank_gap g <> [].
Proof. destruct g; [congruence|discriminate]. Qed.

Lemma blank_lgap_wf g : wf_lgap g -> wf_lgap (blank_lgap g).
Proof.
  intros W. unfold blank_lgap. apply Forall_map. eapply Forall_impl; [|exact W].
  intros [w|nl|b nl]; cbn [wf_lelem]; auto. apply blank_welem_wf.
Qed.

Lemma blank_item_wf i : wf_item i -> wf_item (blank_item i).
Proof.
  destruct i as [v|ks k v|g i]; auto. intros [G W]. cbn [blank_item wf_item].
  split; [apply blank_gap_wf, G|]. destruct i; auto; contradiction.
Qed.

Lemma blank_items_wf l : wf_items l -> wf_items (blank_items l).
Proof.
  intros W. apply Forall_map. eapply Forall_impl; [|exact W]. intros [g i] [G [Ne I]].
  cbn [fst snd] in *. split; [apply blank_gap_wf, G|]. split; [apply blank_gap_ne, Ne|].
  apply blank_item_wf, I.
Qed.

Lemma blank_wf :
  (forall n last, wf_node last n -> wf_node last (blank_node n))
  /\ (forall ch, wf_children ch -> wf_children (blank_children ch))
  /\ (forall l top, wf_list top l -> wf_list top (blank_list l)).
Proof.
  apply d_mut.
  - intros ty ns nm items ch IH g t last H.
    inversion H as [x0 x1 x2 x3 x4 x5 x6 x7 T Nm I C G Wt E]; subst. cbn [blank_node].
    constructor; auto; [apply blank_items_wf, I|apply blank_gap_wf, G].
  - intros W. exact W.
  - intros g lg l IH W. inversion W; subst. cbn [blank_children].
    constructor; auto; [apply blank_gap_wf|apply blank_lgap_wf]; assumption.
  - intros g sg lg l IH W. inversion W; subst. cbn [blank_children].
    constructor; auto; [apply blank_gap_wf|apply blank_gap_wf|apply blank_lgap_wf]; assumption.
  - intros top W. exact W.
  - intros skip n IHn lg l IHl top W. inversion W as [|x1 x2 x3 x4 x5 Sk Wn LG L]; subst.
    cbn [blank_list]. constructor; auto; [| |apply blank_lgap_wf, LG].
    + intros g Q. destruct skip as [g0|]; [|discriminate]. injection Q as <-.
      apply blank_gap_wf. auto.
    + apply IHn. eapply wf_node_weaken; [|exact Wn].
      destruct top; [|auto]. cbn [andb]. destruct lg; [|discriminate].
      destruct l; [auto|discriminate].
Qed.

Lemma blank_relaid_item i : relaid_item i (blank_item i).
Proof. induction i; cbn; constructor; assumption. Qed.

Lemma blank_relaid :
  (forall n, relaid_node n (blank_node n))
  /\ (forall ch, relaid_children ch (blank_children ch))
  /\ (forall l, relaid_list l (blank_list l)).
Proof.
  apply d_mut; intros; cbn [blank_node blank_children blank_list]; try (constructor; assumption).
  - constructor; [|assumption]. induction items as [|gi l IH]; constructor; [|exact IH].
    apply blank_relaid_item.
  - destruct skip; constructor; assumption.
Qed.

Theorem blank_alike d : wf d -> wf (blank d) /\ read_alike (render d) (render (blank d)).
Proof.
  intros W. assert (wf (blank d)) as W'.
  { destruct W as [LG L]. split; [apply blank_lgap_wf, LG|]. apply (proj2 (proj2 blank_wf)), L. }
  split; [exact W'|]. apply relaid_alike; auto. apply (proj2 (proj2 blank_relaid)).
Qed.

(** ** Comments that are not closed *)

Lemma block_closes :
  (forall s, block false s -> exists a b, s = a ++ str "*/" ++ b)
  /\ (forall t, block_rest false t -> exists a b, t = a ++ str "*/" ++ b).
Proof.
  apply block_both.
  - intros t _ [a [b ->]]. exists (str "/*" ++ a), b. rewrite app_assoc. reflexivity.
  - exists [], []. reflexivity.
  - intros s t _ [a [b ->]] _ _. exists a, (b ++ t). rewrite <- !app_assoc. reflexivity.
  - intros c t _ [a [b ->]] _ _. exists (c :: a), b. reflexivity.
  - intros t _ [a [b ->]] _. exists (0x2A%N :: a), b. reflexivity.
Qed.

Local Existing Instance unit_env.

(** Space, then an unclosed comment. *)
Lemma nspace_unclosed (sp R : toks unit) x : nspaces false sp R ->
  chars (sp ++ R) = 0x20%N :: 0x2F%N :: 0x2A%N :: x ->
  (forall a b, x <> a ++ str "*/" ++ b) ->
  sp = [] \/ chars sp = [0x20%N] /\ chars R = 0x2F%N :: 0x2A%N :: x.
Proof.
  intros N X Un. unfold nspaces in N. rewrite chars_app in X.
  assert (forall a t r, nspace_at false a (t ++ r) -> a ++ t ++ r = 0x2F%N :: 0x2A%N :: x -> False)
    as K.
  { intros a t r H Q. remember (t ++ r) as w eqn:Ew. clear Ew.
    destruct H as [a r' [c r'' C|s r'' B]|s u r' M C|s u r' M C].
    - cbn in Q. injection Q as -> _. wsx.
    - assert (B' := B). inversion B' as [u Bu]; subst. apply (proj2 block_closes) in Bu.
      destruct Bu as [a0 [b ->]]. cbn in Q. injection Q as Q. apply (Un a0 (b ++ r'')).
      rewrite <- Q. rewrite <- !app_assoc. reflexivity.
    - cbn in Q. discriminate.
    - cbn in Q. discriminate. }
  inversion N as [r Q1 Q2|a t r Ha Ht Q1 Q2]; subst.
  - left. apply chars_nil. auto.
  - right. rewrite <- Q1 in X. rewrite <- app_assoc in X.
    assert (a = [0x20%N]) as ->.
    { clear -Ha X. destruct Ha as [a r [d r' D|a' r' D]|a b r A1 A2|a b r A1 A2].
      - injection X as -> _. reflexivity.
      - apply block_hd in D. destruct D as [u ->]. discriminate.
      - discriminate.
      - discriminate. }
    injection X as X.
    assert (t = []) as ->.
    { inversion Ht as [|a' t' r' Ha' Ht' Q3 Q4]; subst; [reflexivity|]. exfalso.
      rewrite <- app_assoc in X. eapply K; eassumption. }
    rewrite app_nil_r. auto.
Qed.

Theorem unclosed_rejected x : (forall a b, x <> a ++ str "*/" ++ b) -> rejected (str "n /*" ++ x).
Proof.
  intros Un. apply not_accepted. intros Ac. apply accepted_means in Ac.
  destruct Ac as [D [_ M]]. unfold means in M.
  change (str "n /*" ++ x) with (0x6E%N :: 0x20%N :: 0x2F%N :: 0x2A%N :: x) in M.
  destruct (first_node false _ D 0x6E%N (0x20%N :: 0x2F%N :: 0x2A%N :: x) M
              (plain_chars _)) as [s1 [r [n [D' [Q0 [N _]]]]]]; try wsx.
  assert (chars (s1 ++ r) = 0x6E%N :: 0x20%N :: 0x2F%N :: 0x2A%N :: x) as X.
  { rewrite <- Q0. apply plain_chars. }
  destruct (node_parts false s1 r n _ _ N X) as
    [sn [si [R [nm [l [ps [ch [Q [I [It [F1 [F2 [K _]]]]]]]]]]]]]; [discriminate|].
  rewrite Q in X. destruct (bare_n sn (si ++ R) nm _ I X) as [X1 [X2 ->]].
  { apply stops_cons, nonident_ws; [cbn; tauto|discriminate]. }
  destruct It as [R|sp s t R i l Ne Ns Nw Ii It].
  - destruct (K eq_refl) as [sc [ss [sm [-> [Ch [Ns Tm]]]]]]. clear K. cbn [app] in X2.
    inversion Ch as [r0|sp b r0 l Nb B|sp d b r0 l Nb D1 B]; subst.
    + cbn [app] in X2. destruct (nspace_unclosed _ _ _ Ns X2 Un) as [->|[X3 X4]].
      * cbn [app] in X2. apply terminator_hd in Tm. rewrite chars_app in X2.
        destruct Tm as [[T1 T2]|[[t T]|[d [t [T Y]]]]].
        -- rewrite T1, T2 in X2. discriminate.
        -- rewrite T in X2. discriminate.
        -- rewrite T in X2. injection X2 as -> _. destruct Y as [Y|Y]; [wsx|discriminate].
      * apply terminator_hd in Tm. rewrite chars_app in X4.
        destruct Tm as [[T1 T2]|[[t T]|[d [t [T Y]]]]].
        -- rewrite T1, T2 in X4. discriminate.
        -- rewrite T in X4. discriminate.
        -- rewrite T in X4. injection X4 as -> _. destruct Y as [Y|Y]; [wsx|discriminate].
    + rewrite <- app_assoc in X2. apply braces_hd in B.
      destruct (nspace_unclosed _ _ _ Nb X2 Un) as [->|[X3 X4]].
      * cbn [app] in X2. rewrite X2 in B. discriminate.
      * rewrite X4 in B. discriminate.
    + rewrite <- !app_assoc in X2. apply slashdash_hd in D1. destruct D1 as [u D1].
      destruct (nspace_unclosed _ _ _ Nb X2 Un) as [->|[X3 X4]].
      * cbn [app] in X2. rewrite X2 in D1. discriminate.
      * rewrite X4 in D1. discriminate.
  - rewrite <- !app_assoc in X2.
    destruct (nspace_unclosed _ _ _ Ns X2 Un) as [->|[X3 X4]]; [contradiction|].
    inversion Ii as [s' r0 i' Pi|d s' r0 i' Sd Pi]; subst.
    + apply item_start_at in Pi. destruct Pi as [c [u [Y Z]]].
      rewrite chars_app, Y in X4. injection X4 as -> _. apply item_start_facts in Z.
      destruct Z as [Z _]. congruence.
    + rewrite <- app_assoc in X4. apply slashdash_hd in Sd. destruct Sd as [u Sd].
      rewrite Sd in X4. discriminate.
Qed.

(** Nested comments, however deep, are closed. *)
Lemma opens_not_closed : ~ nested_comment (str "/*/*/").
Proof. intros [u [Q H]]. injection Q as <-. vm_compute in H. discriminate. Qed.

(** Everything after the opening of a comment that never closes at its level is
    still accepted in this case. *)
Theorem unclosed_refuted : exists u, scan 1 u = None /\ accepted (str "a /*" ++ u).
Proof. exists (str "/*/"). split; [reflexivity|]. eexists. vm_compute. reflexivity. Qed.
