(** The grammar does not look at spans: derivations can be mapped along functions
    of spans, and a derivation without spans can be given any spans. *)

From Coq Require Import NArith PeanoNat List Bool String Lia.
From Verif Require Import Chars Ast Chumsky Kdl KdlText Good LexLit PropMap Grammar Items Nodes NodesComplete.
Import ListNotations.
Local Open Scope list_scope.

Section Map.
Context {Sp U : Type} {E : env Sp} {F : env U}.
Variable f : Sp -> U.
Hypothesis f_join : forall a b, f (sp_join a b) = sp_join (f a) (f b).
Hypothesis f_eoi : f sp_eoi = sp_eoi.

Definition mtok (x : tok Sp) : tok U := (fst x, f (snd x)).
Definition mtoks (s : toks Sp) : toks U := map mtok s.

Lemma mtoks_chars s : chars (mtoks s) = chars s.
Proof. unfold chars, mtoks. rewrite map_map. reflexivity. Qed.

Lemma mtoks_app s t : mtoks (s ++ t) = mtoks s ++ mtoks t.
Proof. apply map_app. Qed.

Lemma mtoks_cons x s : mtoks (x :: s) = mtok x :: mtoks s.
Proof. reflexivity. Qed.

Lemma mtoks_nil : mtoks [] = [].
Proof. reflexivity. Qed.

Lemma span_of_map s : span_of (mtoks s) = f (span_of s).
Proof.
  destruct s as [|[c a] s]; [symmetry; apply f_eoi|].
  unfold span_of, mtoks. cbn [map mtok fst snd]. rewrite f_join. f_equal.
  change (@pair char U c (f a)) with (mtok (c, a)).
  assert (forall (l : toks Sp) (d : tok Sp) d', f (snd d) = snd d' ->
    snd (last (map mtok l) d') = f (snd (last l d))) as K.
  { induction l as [|x l IH]; intros d d' H; [symmetry; exact H|].
    destruct l as [|y l]; [reflexivity|]. exact (IH d d' H). }
  apply (K ((c, a) :: s)). reflexivity.
Qed.

Lemma spanned_map_eq {T} s (x : T) :
  spanned_map_span f (Spanned (span_of s) x) = Spanned (span_of (mtoks s)) x.
Proof. unfold spanned_map_span. cbn [s_span s_value]. rewrite span_of_map. reflexivity. Qed.

Lemma value_map s v : value_at s v -> value_at (mtoks s) (map_value_span f v).
Proof.
  destruct 1 as [s l L|st s ty l T L]; unfold map_value_span;
    cbn [v_type_name v_literal option_map]; rewrite !spanned_map_eq.
  - constructor. rewrite mtoks_chars. exact L.
  - rewrite mtoks_app. constructor; rewrite mtoks_chars; assumption.
Qed.

Definition mentry (e : @entry Sp) : @entry U :=
  match e with
  | Argument v => Argument (map_value_span f v)
  | Property k v => Property (spanned_map_span f k) (map_value_span f v)
  | Nothing => Nothing
  end.

Lemma plain_item_map s i : plain_item_at s i -> plain_item_at (mtoks s) (mentry i).
Proof.
  destruct 1 as [s v V|sk e s k v K Ee V]; cbn [mentry].
  - constructor. apply value_map, V.
  - rewrite mtoks_app, mtoks_cons, spanned_map_eq. constructor.
    + rewrite mtoks_chars. exact K.
    + exact Ee.
    + apply value_map, V.
Qed.

Section Strict.
Variable strict : bool.

Lemma nspaces_map s r : nspaces strict s r -> nspaces strict (mtoks s) (mtoks r).
Proof. unfold nspaces. rewrite !mtoks_chars. auto. Qed.
Lemma lspaces_map s r : lspaces strict s r -> lspaces strict (mtoks s) (mtoks r).
Proof. unfold lspaces. rewrite !mtoks_chars. auto. Qed.

Lemma slashdash_map d r : slashdash_at strict d r -> slashdash_at strict (mtoks d) (mtoks r).
Proof.
  destruct 1 as [a b s rest A B N W]. rewrite !mtoks_cons. constructor; auto.
  - apply nspaces_map, N.
  - rewrite mtoks_chars. exact W.
Qed.

Lemma item_map s r i : item_at strict s r i -> item_at strict (mtoks s) (mtoks r) (mentry i).
Proof.
  destruct 1 as [s rest i P|d s rest i D P].
  - constructor. apply plain_item_map, P.
  - rewrite mtoks_app. eapply Item_skipped; [|apply plain_item_map, P].
    rewrite <- mtoks_app. apply slashdash_map, D.
Qed.

Lemma items_map s r l : items_at strict s r l ->
  items_at strict (mtoks s) (mtoks r) (map mentry l).
Proof.
  induction 1 as [rest|sp s t rest i l Ne N W I T IH].
  - constructor.
  - rewrite !mtoks_app. cbn [map]. constructor; rewrite <- ?mtoks_app.
    + destruct sp; [congruence|discriminate].
    + apply nspaces_map, N.
    + rewrite mtoks_chars. exact W.
    + apply item_map, I.
    + exact IH.
Qed.

Definition mkv (kv : spanned text Sp * value Sp) : spanned text U * value U :=
  (spanned_map_span f (fst kv), map_value_span f (snd kv)).

Lemma arguments_map l : arguments_of (map mentry l) = map (map_value_span f) (arguments_of l).
Proof.
  induction l as [|[v|k v|] l IH]; cbn [map mentry arguments_of]; rewrite ?IH; reflexivity.
Qed.
Lemma properties_map l : properties_of (map mentry l) = map mkv (properties_of l).
Proof.
  induction l as [|[v|k v|] l IH]; cbn [map mentry properties_of]; rewrite ?IH; reflexivity.
Qed.

Lemma insert_map k v m : map mkv (props_insert k v m)
  = props_insert (spanned_map_span f k) (map_value_span f v) (map mkv m).
Proof.
  induction m as [|[k' v'] m IH]; [reflexivity|].
  change (map mkv ((k', v') :: m)) with (mkv (k', v') :: map mkv m).
  change (mkv (k', v')) with (spanned_map_span f k', map_value_span f v').
  cbn [props_insert].
  change (s_value (spanned_map_span f k)) with (s_value k).
  change (s_value (spanned_map_span f k')) with (s_value k').
  destruct (text_compare (s_value k) (s_value k')); [reflexivity..|].
  cbn [map]. rewrite IH. reflexivity.
Qed.

Lemma fold_insert_map l : forall m,
  map mkv (fold_left (fun m x => props_insert (fst x) (snd x) m) l m)
  = fold_left (fun m x => props_insert (fst x) (snd x) m) (map mkv l) (map mkv m).
Proof.
  induction l as [|[k v] l IH]; intros m; [reflexivity|].
  cbn [fold_left map fst snd mkv]. rewrite IH, insert_map. reflexivity.
Qed.

Lemma property_map_map l m : property_map l m -> property_map (map mkv l) (map mkv m).
Proof.
  intros H. pose proof (property_map_fold l [] [] property_map_nil) as K. cbn [app] in K.
  rewrite (property_map_unique _ _ _ H K), fold_insert_map.
  apply (property_map_fold (map mkv l) [] [] property_map_nil).
Qed.

Lemma opt_type_map s o : opt_type_at s o ->
  opt_type_at (mtoks s) (option_map (spanned_map_span f) o).
Proof.
  destruct 1 as [|s ty T]; [constructor|]. cbn [option_map]. rewrite spanned_map_eq.
  constructor. rewrite mtoks_chars. exact T.
Qed.

Definition mchildren (o : option (spanned (list (snode Sp)) Sp)) :=
  match o with
  | None => None
  | Some (Spanned sp l) => Some (Spanned (f sp) (map_doc_span f l))
  end.

Lemma map_all :
  (forall s r nd, node_at strict s r nd ->
     node_at strict (mtoks s) (mtoks r) (map_node_span f nd)) /\
  (forall s r c, children_at strict s r c -> children_at strict (mtoks s) (mtoks r) (mchildren c)) /\
  (forall s r l, braces_at strict s r l -> braces_at strict (mtoks s) (mtoks r) (map_doc_span f l)) /\
  (forall s r l, nodes_at strict s r l -> nodes_at strict (mtoks s) (mtoks r) (map_doc_span f l)) /\
  (forall s r l, node_list_at strict s r l ->
     node_list_at strict (mtoks s) (mtoks r) (map_doc_span f l)).
Proof.
  apply kdl_mut.
  - intros st sn si sc ss sm rest ty nm l ps ch OT Id It Ch IHc Ns Tm Pm.
    rewrite !mtoks_app.
    assert (map_node_span f (Node ty (Spanned (span_of sn) nm) (arguments_of l) ps ch)
      = Node (option_map (spanned_map_span f) ty) (Spanned (span_of (mtoks sn)) nm)
          (arguments_of (map mentry l)) (map mkv ps) (mchildren ch)) as ->.
    { cbn [map_node_span]. rewrite spanned_map_eq, arguments_map.
      destruct ch as [[]|]; reflexivity. }
    constructor; rewrite <- ?mtoks_app, ?mtoks_chars; auto.
    + apply opt_type_map, OT.
    + apply items_map, It.
    + apply nspaces_map, Ns.
    + rewrite properties_map. apply property_map_map, Pm.
  - intros. constructor.
  - intros sp b rest l Ns B IH. rewrite mtoks_app. cbn [mchildren]. rewrite <- span_of_map.
    constructor; rewrite <- ?mtoks_app; [apply nspaces_map, Ns|exact IH].
  - intros sp d b rest l Ns D B IH. rewrite !mtoks_app. cbn [mchildren].
    econstructor; rewrite <- ?mtoks_app; [apply nspaces_map, Ns|apply slashdash_map, D|exact IH].
  - intros o s c rest l A B N IH. rewrite mtoks_cons, mtoks_app. constructor; auto.
  - intros sp s rest l L N IH. rewrite mtoks_app. constructor; [|exact IH].
    rewrite <- mtoks_app. apply lspaces_map, L.
  - intros rest. constructor.
  - intros s sp t rest n l W Nd IHn L T IHt. rewrite !mtoks_app. cbn [map_doc_span map].
    unfold map_snode_span at 1. cbn [s_span s_value]. rewrite <- span_of_map.
    constructor; rewrite <- ?mtoks_app.
    + rewrite mtoks_chars. exact W.
    + exact IHn.
    + apply lspaces_map, L.
    + exact IHt.
  - intros d s sp t rest n l D Nd IHn L T IHt. rewrite !mtoks_app.
    econstructor; rewrite <- ?mtoks_app.
    + apply slashdash_map, D.
    + exact IHn.
    + apply lspaces_map, L.
    + exact IHt.
Qed.

Lemma document_map s d : document_at strict s d ->
  document_at strict (mtoks s) (map_doc_span f d).
Proof. destruct map_all as [_ [_ [_ [K _]]]]. apply (K s [] d). Qed.

End Strict.
End Map.

(** ** Giving spans *)

Section Lift.
Context {Sp : Type} {E : env Sp}.

Local Notation toks := (toks Sp).
Local Notation utoks := (Chumsky.toks unit).
Local Existing Instance unit_env.

Definition er {A} (_ : A) : unit := tt.

Lemma split_like (u v : utoks) (s : toks) : chars s = chars (u ++ v) ->
  exists a b, s = a ++ b /\ chars a = chars u /\ chars b = chars v.
Proof. rewrite chars_app. apply chars_split. Qed.

Lemma cons_like x (v : utoks) (s : toks) : chars s = chars (x :: v) ->
  exists y b, s = y :: b /\ fst y = fst x /\ chars b = chars v.
Proof.
  intros H. apply chars_cons in H. destruct H as [sp [b [-> H]]].
  exists (fst x, sp), b. auto.
Qed.

Tactic Notation "sp" hyp(h0) simple_intropattern(a0) simple_intropattern(b0)
    simple_intropattern(x0) simple_intropattern(y0) :=
  apply split_like in h0; destruct h0 as [a0 [b0 [-> [x0 y0]]]].

Lemma uspan (u : utoks) : span_of u = tt.
Proof. destruct (span_of u). reflexivity. Qed.

Ltac ur := unfold er; cbn; rewrite ?uspan; reflexivity.

Lemma value_lift u v : value_at u v -> forall s : toks, chars s = chars u ->
  exists v', value_at s v' /\ map_value_span er v' = v.
Proof.
  destruct 1 as [u l L|ut u ty l T L]; intros s H.
  - exists (Value None (Spanned (span_of s) l)). split; [|ur].
    constructor. rewrite H. exact L.
  - sp H a b X Y. exists (Value (Some (Spanned (span_of a) ty)) (Spanned (span_of b) l)).
    split; [|ur]. constructor; [rewrite X; exact T|rewrite Y; exact L].
Qed.

Lemma plain_item_lift u i : plain_item_at u i -> forall s : toks, chars s = chars u ->
  exists i', plain_item_at s i' /\ mentry er i' = i.
Proof.
  destruct 1 as [u v V|uk e u k v K Ee V]; intros s H.
  - destruct (value_lift u v V s H) as [v' [A B]]. exists (Argument v').
    split; [constructor; exact A|cbn; congruence].
  - sp H a b X Y. apply cons_like in Y. destruct Y as [y [b' [-> [Y1 Y2]]]].
    destruct (value_lift u v V b' Y2) as [v' [A B]].
    exists (Property (Spanned (span_of a) k) v'). split.
    + constructor; [rewrite X; exact K|exact (eq_trans Y1 Ee)|exact A].
    + cbn. rewrite B, uspan. reflexivity.
Qed.

Section Strict.
Variable strict : bool.

Lemma nspaces_like (u ur : utoks) (s r : toks) : nspaces strict u ur -> chars s = chars u ->
  chars r = chars ur -> nspaces strict s r.
Proof. unfold nspaces. intros H -> ->. exact H. Qed.
Lemma lspaces_like (u ur : utoks) (s r : toks) : lspaces strict u ur -> chars s = chars u ->
  chars r = chars ur -> lspaces strict s r.
Proof. unfold lspaces. intros H -> ->. exact H. Qed.

Lemma slashdash_lift (u ur : utoks) (s r : toks) : slashdash_at strict u ur -> chars s = chars u ->
  chars r = chars ur -> slashdash_at strict s r.
Proof.
  destruct 1 as [a b u ur A B N W]. intros H R.
  apply cons_like in H. destruct H as [x [s1 [-> [X H]]]].
  apply cons_like in H. destruct H as [y [s2 [-> [Y H]]]].
  constructor; [exact (eq_trans X A)|exact (eq_trans Y B)| |rewrite R; exact W].
  eapply nspaces_like; eauto.
Qed.

Lemma app_like (a b : toks) (u v : utoks) : chars a = chars u -> chars b = chars v ->
  chars (a ++ b) = chars (u ++ v).
Proof. rewrite !chars_app. congruence. Qed.

Lemma item_lift u ur i : item_at strict u ur i -> forall s r : toks, chars s = chars u ->
  chars r = chars ur -> exists i', item_at strict s r i' /\ mentry er i' = i.
Proof.
  destruct 1 as [u ur i P|d u ur i D P]; intros s r H R.
  - destruct (plain_item_lift u i P s H) as [i' [A B]]. exists i'. split; [constructor; exact A|exact B].
  - sp H a b X Y. destruct (plain_item_lift u i P b Y) as [i' [A B]].
    exists Nothing. split; [|reflexivity]. eapply Item_skipped; [|exact A].
    eapply slashdash_lift; [exact D|exact X|apply app_like; assumption].
Qed.

Lemma items_lift u ur l : items_at strict u ur l -> forall s r : toks, chars s = chars u ->
  chars r = chars ur -> exists l', items_at strict s r l' /\ map (mentry er) l' = l.
Proof.
  induction 1 as [ur|usp u t ur i l Ne N W I T IH]; intros s r H R.
  - apply chars_nil in H. subst. exists []. split; [constructor|reflexivity].
  - sp H a h X K0. sp K0 b c Y Z.
    destruct (IH c r Z R) as [l' [A B]].
    assert (chars (b ++ c ++ r) = chars (u ++ t ++ ur)) as K by (repeat apply app_like; assumption).
    destruct (item_lift _ _ _ I b (c ++ r) Y (app_like _ _ _ _ Z R)) as [i' [P Q]].
    exists (i' :: l'). split; [|cbn [map]; congruence].
    constructor; auto.
    + intros ->. symmetry in X. apply chars_nil in X. auto.
    + eapply nspaces_like; eauto.
    + rewrite K. exact W.
Qed.

Lemma property_lift l ps : property_map (map (mkv er) l) ps ->
  exists ps', property_map l ps' /\ map (@mkv Sp unit er) ps' = ps.
Proof.
  intros H. pose proof (property_map_fold l [] [] property_map_nil) as K. cbn [app] in K.
  eexists. split; [exact K|]. apply (property_map_map er) in K.
  eapply property_map_unique; eauto.
Qed.

Definition node_l (u ur : utoks) (nd : node unit) : Prop :=
  forall s r : toks, chars s = chars u -> chars r = chars ur ->
  exists nd', node_at strict s r nd' /\ map_node_span er nd' = nd.
Definition children_l (u ur : utoks) (c : option (spanned (list (snode unit)) unit)) : Prop :=
  forall s r : toks, chars s = chars u -> chars r = chars ur ->
  exists c', children_at strict s r c' /\ mchildren er c' = c.
Definition braces_l (u ur : utoks) (l : list (snode unit)) : Prop :=
  forall s r : toks, chars s = chars u -> chars r = chars ur ->
  exists l', braces_at strict s r l' /\ map_doc_span er l' = l.
Definition nodes_l (u ur : utoks) (l : list (snode unit)) : Prop :=
  forall s r : toks, chars s = chars u -> chars r = chars ur ->
  exists l', nodes_at strict s r l' /\ map_doc_span er l' = l.
Definition node_list_l (u ur : utoks) (l : list (snode unit)) : Prop :=
  forall s r : toks, chars s = chars u -> chars r = chars ur ->
  exists l', node_list_at strict s r l' /\ map_doc_span er l' = l.

Lemma lift_all :
  (forall u ur nd, node_at strict u ur nd -> node_l u ur nd) /\
  (forall u ur c, children_at strict u ur c -> children_l u ur c) /\
  (forall u ur l, braces_at strict u ur l -> braces_l u ur l) /\
  (forall u ur l, nodes_at strict u ur l -> nodes_l u ur l) /\
  (forall u ur l, node_list_at strict u ur l -> node_list_l u ur l).
Proof.
  apply kdl_mut.
  - intros st sn si sc ss sm rest ty nm l ps ch OT Id It Ch IHc Ns Tm Pm s r H R.
    sp H a h1 X1 Y1. sp Y1 b h2 X2 Y2. sp Y2 c h3 X3 Y3. sp Y3 d h4 X4 Y4. sp Y4 e g X5 X6.
    pose proof (app_like _ _ _ _ X6 R) as K1.
    pose proof (app_like _ _ _ _ X5 K1) as K2.
    pose proof (app_like _ _ _ _ X4 K2) as K3.
    pose proof (app_like _ _ _ _ X3 K3) as K4.
    destruct (items_lift _ _ _ It c _ X3 K3) as [l' [I1 I2]].
    destruct (IHc d _ X4 K2) as [ch' [C1 C2]].
    rewrite <- I2, (properties_map er) in Pm. apply property_lift in Pm.
    destruct Pm as [ps' [P1 P2]].
    assert (exists ty', opt_type_at a ty' /\ option_map (spanned_map_span er) ty' = ty) as [ty' [T1 T2]].
    { destruct OT as [|u ty T].
      - apply chars_nil in X1. subst. exists None. split; [constructor|reflexivity].
      - exists (Some (Spanned (span_of a) ty)). split; [|ur].
        constructor. rewrite X1. exact T. }
    exists (Node ty' (Spanned (span_of b) nm) (arguments_of l') ps' ch'). split.
    + constructor; auto.
      * rewrite X2, K4. exact Id.
      * eapply nspaces_like; eauto.
      * rewrite X6, R. exact Tm.
    + cbn [map_node_span]. rewrite T2, <- (arguments_map er), I2, uspan.
      change (map (fun kv => (spanned_map_span er (fst kv), map_value_span er (snd kv))) ps')
        with (map (mkv er) ps'). rewrite P2.
      f_equal. rewrite <- C2. destruct ch' as [[]|]; reflexivity.
  - intros rest s r H R. apply chars_nil in H. subst. exists None. split; [constructor|reflexivity].
  - intros sp b rest l Ns B IH s r H R. sp H a c X Y.
    destruct (IH c r Y R) as [l' [A Q]].
    exists (Some (Spanned (span_of c) l')). split; [|cbn [mchildren]; rewrite Q, uspan; reflexivity].
    constructor; [|exact A]. eapply nspaces_like; [exact Ns|exact X|apply app_like; assumption].
  - intros sp d b rest l Ns D B IH s r H R. sp H a h X K0. sp K0 c e Y Z.
    destruct (IH e r Z R) as [l' [A Q]].
    exists None. split; [|reflexivity].
    pose proof (app_like _ _ _ _ Z R) as K1. pose proof (app_like _ _ _ _ Y K1) as K2.
    econstructor; [eapply nspaces_like; eauto|eapply slashdash_lift; eauto|exact A].
  - intros o u c rest l A B N IH s r H R.
    apply cons_like in H. destruct H as [x [s1 [-> [X H]]]]. sp H a b Y Z.
    apply cons_like in Z. destruct Z as [y [s2 [-> [Z1 Z2]]]].
    apply chars_nil in Z2. subst s2.
    destruct (IH a (y :: r) Y) as [l' [P Q]].
    { rewrite !chars_c, R. exact (f_equal (fun x => x :: chars rest) Z1). }
    exists l'. split; [|exact Q]. constructor; [exact (eq_trans X A)|exact (eq_trans Z1 B)|exact P].
  - intros usp u rest l L N IH s r H R. sp H a b X Y.
    destruct (IH b r Y R) as [l' [P Q]]. exists l'. split; [|exact Q].
    constructor; [|exact P]. eapply lspaces_like; [exact L|exact X|apply app_like; assumption].
  - intros rest s r H R. apply chars_nil in H. subst. exists []. split; [constructor|reflexivity].
  - intros u usp t rest n l W Nd IHn L T IHt s r H R.
    sp H a h X K0. sp K0 b c Y Z. pose proof (app_like _ _ _ _ Z R) as K1.
    pose proof (app_like _ _ _ _ Y K1) as K2.
    destruct (IHn a _ X K2) as [n' [N1 N2]]. destruct (IHt c r Z R) as [l' [L1 L2]].
    exists (Spanned (span_of a) n' :: l'). split.
    + constructor; auto.
      * rewrite X. exact W.
      * eapply lspaces_like; eauto.
    + cbn [map_doc_span map]. unfold map_snode_span at 1. cbn [s_span s_value].
      rewrite N2, uspan. fold (map_doc_span er l'). rewrite L2. reflexivity.
  - intros d u usp t rest n l D Nd IHn L T IHt s r H R.
    sp H e h W0 K0. sp K0 a h' X K0'. sp K0' b c Y Z. pose proof (app_like _ _ _ _ Z R) as K1.
    pose proof (app_like _ _ _ _ Y K1) as K2. pose proof (app_like _ _ _ _ X K2) as K3.
    destruct (IHn a _ X K2) as [n' [N1 N2]]. destruct (IHt c r Z R) as [l' [L1 L2]].
    exists l'. split; [|exact L2]. econstructor; eauto.
    + eapply slashdash_lift; eauto.
    + eapply lspaces_like; eauto.
Qed.

Lemma document_lift u d : document_at strict u d -> forall s : toks, chars s = chars u ->
  exists d', document_at strict s d' /\ map_doc_span er d' = d.
Proof.
  destruct lift_all as [_ [_ [_ [K _]]]]. intros H s X. apply (K u [] d H s [] X). reflexivity.
Qed.

End Strict.
End Lift.
