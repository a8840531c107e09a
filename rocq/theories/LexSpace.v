(** Newlines, comments and spaces: the parsers accept what the grammar says. *)

From Coq Require Import NArith ZArith PeanoNat List Bool String Lia ZifyBool.
From Verif Require Import Chars Ast Errors Chumsky Spans Grammar Safe GrammarSafe
  Near GrammarNear Kdl KdlChars Good.
Import ListNotations.
Local Open Scope list_scope.

Ltac gi :=
  repeat match goal with
  | H : good (p_map _ _ _) _ _ |- _ => apply good_map in H; destruct H as [? [H ?]]
  | H : good (p_ignored _ _) _ _ |- _ => apply good_ignored in H; destruct H as [? H]
  | H : good (p_map_err _ _ _) _ _ |- _ => apply good_map_err in H
  | H : good (p_map_err_with_span _ _ _) _ _ |- _ => apply good_map_err_with_span in H
  | H : good (p_then _ _ _) _ _ |- _ =>
      apply good_then in H; destruct H as [? [? [? [H [? ?]]]]]
  | H : good (p_ignore_then _ _ _) _ _ |- _ =>
      apply good_ignore_then in H; destruct H as [? [? [H ?]]]
  | H : good (p_then_ignore _ _ _) _ _ |- _ =>
      apply good_then_ignore in H; destruct H as [? [? [H ?]]]
  | H : good (p_delimited _ _ _ _) _ _ |- _ =>
      apply good_delimited in H; destruct H as [? [? [? [? [H [? ?]]]]]]
  | H : good (p_just _ _) _ _ |- _ =>
      apply good_just in H; destruct H as [? [? ?]]
  | H : good (p_filter _ _) _ _ |- _ =>
      apply good_filter in H; destruct H as [? [? ?]]
  | H : good (p_none_of _ _) _ _ |- _ =>
      apply good_filter in H; destruct H as [? [? ?]]
  | H : good (p_just_str _ _) _ _ |- _ =>
      apply good_just_str in H; destruct H as [? [? ?]]
  | H : good (p_end _) _ _ |- _ => apply good_end in H; destruct H as [? ?]
  | H : good (p_rewind _ _) _ _ |- _ =>
      apply good_rewind in H; destruct H as [? [? H]]
  end; subst.

Ltac quiets :=
  lazymatch goal with
  | |- quiet (p_just _) => apply quiet_just
  | |- quiet (p_filter _) => apply quiet_filter
  | |- quiet (p_none_of _) => apply quiet_filter
  | |- quiet (p_filter_map _) => apply quiet_filter_map
  | |- quiet (p_just_str _) => apply quiet_just_str
  | |- quiet p_end => apply quiet_end
  | |- quiet (p_map _ _) => apply quiet_map; quiets
  | |- quiet (p_ignored _) => apply quiet_ignored; quiets
  | |- quiet (p_map_with_span _ _) => apply quiet_map_with_span; quiets
  | |- quiet (p_map_err _ _) => apply quiet_map_err; quiets
  | |- quiet (p_try_map _ _) => apply quiet_try_map; quiets
  | |- quiet (p_map_err_with_span _ _) => apply quiet_map_err_with_span; quiets
  | |- quiet (p_bind _ _) => apply quiet_bind; [|intros ?]; quiets
  | |- quiet (p_then _ _) => apply quiet_then; quiets
  | |- quiet (p_ignore_then _ _) => apply quiet_ignore_then; quiets
  | |- quiet (p_then_ignore _ _) => apply quiet_then_ignore; quiets
  | |- quiet (p_delimited _ _ _) => apply quiet_delimited; quiets
  | |- quiet (p_or _ _) => apply quiet_or; quiets
  | |- quiet (p_choice _) => apply quiet_choice; foralls; quiets
  | |- quiet (p_or_not _) => apply quiet_or_not; quiets
  | |- quiet (p_rewind _) => apply quiet_rewind; quiets
  | |- quiet (p_repeated _) => apply quiet_repeated; quiets
  | |- quiet (p_repeat _ _ _) => apply quiet_repeat; quiets
  | |- quiet (p_exactly _ _) => apply quiet_repeat; quiets
  | |- quiet (p_take_until _) => apply quiet_take_until; quiets
  | |- _ => auto
  end.

Section Space.
Context {Sp : Type} {E : env Sp}.

Notation parser := (parser Sp).
Notation toks := (toks Sp).
Notation len := (@List.length (tok Sp)).

Lemma good_or_q {A} (p q : parser A) ts a rest : quiet p ->
  good (p_or p q ts) a rest ->
  good (p ts) a rest \/ (good (q ts) a rest /\ failed (p ts)).
Proof.
  intros Q G. apply good_or in G. destruct G as [G|[G [F|F]]]; auto.
  exfalso. apply F. apply Q.
Qed.

Lemma rej_failed {A} f (p : parser A) ts : rej f p -> hd f ts = false -> failed (p ts).
Proof. intros R H. destruct (R ts H) as [e [X _]]. rewrite X. eexists; reflexivity. Qed.

Lemma hd_chars f (ts : toks) :
  hd f ts = match chars ts with [] => false | c :: _ => f c end.
Proof. destruct ts as [|[c sp] ts]; reflexivity. Qed.

Lemma failed_begin_comment x (ts : toks) : ~ prefix [0x2F; x]%N (chars ts) ->
  failed (begin_comment x ts).
Proof.
  intros H. unfold begin_comment.
  destruct ts as [|[a sa] ts].
  { apply failed_ignore_then1, failed_map_err, failed_just_nil. }
  destruct (N.eq_dec a 0x2F) as [->|N].
  2:{ apply failed_ignore_then1, failed_map_err, failed_just, N. }
  eapply failed_ignore_then2; [apply succ_map_err, succ_just|].
  apply failed_map, failed_just_iff. intros X. apply H.
  destruct ts as [|[b sb] ts]; [discriminate|]. simpl in X. inversion X; subst.
  exists (chars ts). reflexivity.
Qed.

Lemma succ_begin_comment x a b (ts : toks) :
  succ (begin_comment x ((0x2F%N, a) :: (x, b) :: ts)) tt ts.
Proof.
  unfold begin_comment. eapply succ_ignore_then; [apply succ_map_err, succ_just|].
  eapply succ_ignored, succ_just.
Qed.

Lemma good_begin_comment x (ts : toks) u rest : good (begin_comment x ts) u rest ->
  exists a b, ts = (0x2F%N, a) :: (x, b) :: rest.
Proof.
  unfold begin_comment. intros G. gi. eauto.
Qed.

(** *** Newlines *)

Lemma newline_complete s rest : newline_at (chars s) (chars rest) ->
  succ (newline (s ++ rest)) tt rest.
Proof.
  unfold newline. intros H. apply succ_map_err.
  remember (chars s) as cs. remember (chars rest) as cr.
  destruct H as [r|r H|c r H N].
  - destruct s as [|[c1 s1] [|[c2 s2] [|? ?]]]; inversion Heqcs; subst.
    eapply succ_ignored. do 5 apply succ_or_l.
    eapply succ_ignore_then; [apply succ_or_not_some, succ_just|apply succ_just].
  - destruct s as [|[c1 s1] [|? ?]]; inversion Heqcs; subst.
    eapply succ_ignored. do 4 apply succ_or_l. apply succ_or_r; [|apply succ_just].
    eapply failed_ignore_then2; [apply succ_or_not_some, succ_just|].
    apply failed_just_iff. exact H.
  - destruct s as [|[c1 s1] [|? ?]]; inversion Heqcs; subst. clear Heqcs.
    assert (forall x, x <> c1 -> failed (p_just x ((c1, s1) :: rest))) as F.
    { intros x X. apply failed_just. congruence. }
    unfold newline_chars in H. simpl in H.
    destruct H as [H|[H|[H|[H|[H|[H|[]]]]]]]; try congruence; subst c1;
      eapply succ_ignored.
    + do 5 apply succ_or_l. eapply succ_ignore_then; [|apply succ_just].
      apply succ_or_not_none. apply F. discriminate.
    + do 3 apply succ_or_l. apply succ_or_r; [|apply succ_just].
      apply failed_or; [|apply F; discriminate].
      eapply failed_ignore_then2; [apply succ_or_not_none; apply F; discriminate|].
      apply F. discriminate.
    + do 2 apply succ_or_l. apply succ_or_r; [|apply succ_just].
      repeat apply failed_or; try (apply F; discriminate).
      eapply failed_ignore_then2; [apply succ_or_not_none; apply F; discriminate|].
      apply F. discriminate.
    + do 1 apply succ_or_l. apply succ_or_r; [|apply succ_just].
      repeat apply failed_or; try (apply F; discriminate).
      eapply failed_ignore_then2; [apply succ_or_not_none; apply F; discriminate|].
      apply F. discriminate.
    + apply succ_or_r; [|apply succ_just].
      repeat apply failed_or; try (apply F; discriminate).
      eapply failed_ignore_then2; [apply succ_or_not_none; apply F; discriminate|].
      apply F. discriminate.
Qed.

Lemma quiet_crlf : @quiet Sp _ (p_ignore_then (p_or_not (p_just 0x0D%N)) (p_just 0x0A%N)).
Proof. quiets. Qed.

Lemma newline_sound ts u rest : good (newline ts) u rest ->
  exists s, ts = s ++ rest /\ newline_at (chars s) (chars rest).
Proof.
  unfold newline. intros G. gi.
  assert (forall c sp, In c newline_chars -> c <> 0x0D%N ->
    exists s, (c, sp) :: rest = s ++ rest /\ newline_at (chars s) (chars rest)) as One.
  { intros c sp H N. exists [(c, sp)]. split; [reflexivity|]. simpl.
    apply NL_one; auto. }
  apply good_or_q in G; [|quiets]. destruct G as [G|[G _]].
  2:{ gi. apply One; [simpl; tauto|discriminate]. }
  apply good_or_q in G; [|quiets]. destruct G as [G|[G _]].
  2:{ gi. apply One; [simpl; tauto|discriminate]. }
  apply good_or_q in G; [|quiets]. destruct G as [G|[G _]].
  2:{ gi. apply One; [simpl; tauto|discriminate]. }
  apply good_or_q in G; [|quiets]. destruct G as [G|[G _]].
  2:{ gi. apply One; [simpl; tauto|discriminate]. }
  apply good_or_q in G; [|quiets]. destruct G as [G|[G F]].
  - gi. apply good_or_not in G. destruct G as [[a [? G]]|[? [? _]]]; subst.
    + gi. match goal with |- exists s, ?a :: ?b :: _ = _ /\ _ => exists [a; b] end.
      split; [reflexivity|]. apply NL_crlf.
    + apply One; [simpl; tauto|discriminate].
  - gi. match goal with |- exists s, ?a :: _ = _ /\ _ => exists [a] end.
    split; [reflexivity|]. apply NL_cr.
    intros X. destruct rest as [|[c sp] rest]; [discriminate|].
    simpl in X. inversion X; subst.
    eapply succ_failed; [|exact F].
    eapply succ_ignore_then; [apply succ_or_not_some, succ_just|apply succ_just].
Qed.

Lemma newline_failed ts :
  match chars ts with [] => True | c :: _ => ~ In c newline_chars end ->
  failed (newline ts).
Proof.
  intros H. apply (rej_failed is_nl); [apply rej_newline|]. rewrite hd_chars.
  destruct (chars ts); [reflexivity|]. rewrite newline_char_spec in H.
  unfold is_nl. lia.
Qed.

Lemma newline_some c sp (rest : toks) : In c newline_chars ->
  exists r, succ (newline ((c, sp) :: rest)) tt r.
Proof.
  intros H. destruct (N.eq_dec c 0x0D) as [->|N].
  - destruct rest as [|[d sd] rest].
    + exists []. apply (newline_complete [(0x0D%N, sp)] []). apply NL_cr. discriminate.
    + destruct (N.eq_dec d 0x0A) as [->|N].
      * exists rest. apply (newline_complete [(0x0D%N, sp); (0x0A%N, sd)] rest).
        apply NL_crlf.
      * exists ((d, sd) :: rest).
        apply (newline_complete [(0x0D%N, sp)] ((d, sd) :: rest)). apply NL_cr.
        simpl. congruence.
  - exists rest. apply (newline_complete [(c, sp)] rest). apply NL_one; auto.
Qed.

Lemma newline_at_ne s rest : newline_at s rest -> exists c t, s = c :: t /\ In c newline_chars.
Proof.
  destruct 1; eexists; eexists; split; try reflexivity; auto; simpl; tauto.
Qed.

(** *** Line comments *)

Lemma comment_complete s rest : line_comment_at (chars s) (chars rest) ->
  succ (comment (s ++ rest)) tt rest.
Proof.
  intros H. unfold comment.
  assert (exists a b body nl, s = (0x2F%N, a) :: (0x2F%N, b) :: body ++ nl
     /\ no_newline (chars body)
     /\ (newline_at (chars nl) (chars rest) \/ (nl = [] /\ rest = []))) as K.
  { remember (chars s) as cs. remember (chars rest) as cr.
    destruct H as [body nl r Hb Hn|body Hb]; subst.
    - destruct s as [|[c1 s1] [|[c2 s2] s]]; inversion Heqcs; subst.
      symmetry in H2. apply chars_split in H2. destruct H2 as [u [v [-> [X Y]]]].
      exists s1, s2, u, v. subst. auto.
    - destruct s as [|[c1 s1] [|[c2 s2] s]]; inversion Heqcs; subst.
      exists s1, s2, s, []. rewrite app_nil_r. symmetry in Heqcr.
      apply chars_nil in Heqcr. auto. }
  destruct K as [a [b [body [nl [-> [Hb Hn]]]]]].
  eapply succ_ignored. cbn [app]. eapply succ_then; [apply succ_begin_comment|].
  rewrite <- app_assoc. apply succ_take_until.
  - intros u v X Y. subst body. unfold no_newline in Hb. rewrite chars_app in Hb.
    apply Forall_app in Hb. destruct Hb as [_ Hb].
    destruct v as [|[c sp] v]; [congruence|].
    apply failed_or.
    + apply newline_failed. simpl. simpl in Hb. inversion Hb; auto.
    + cbn [app p_end]. eexists; reflexivity.
  - destruct Hn as [Hn|[-> ->]].
    + apply succ_or_l. apply newline_complete. exact Hn.
    + simpl. apply succ_or_r; [apply newline_failed; exact I|apply succ_end].
Qed.

Lemma comment_sound ts u rest : good (comment ts) u rest ->
  exists s, ts = s ++ rest /\ line_comment_at (chars s) (chars rest).
Proof.
  unfold comment. intros G. gi.
  match goal with H : good (begin_comment _ _) _ _ |- _ =>
    apply good_begin_comment in H; destruct H as [a [b ->]] end.
  match goal with H : good (p_take_until _ _) _ _ |- _ => rename H into K end.
  match type of K with good _ ?x _ => destruct x as [cs []] end.
  apply good_take_until in K. destruct K as [s [mid [-> [_ [K F]]]]].
  assert (no_newline (chars s)) as Hn.
  { unfold no_newline. apply Forall_forall. intros c I N.
    unfold chars in I. apply in_map_iff in I. destruct I as [[c' sp] [X I]].
    simpl in X. subst c'. apply in_split in I. destruct I as [u1 [v1 ->]].
    specialize (F u1 ((c, sp) :: v1) eq_refl). 
    destruct (newline_some c sp (v1 ++ mid) N) as [r S].
    eapply succ_failed; [apply succ_or_l; exact S|]. apply F. discriminate. }
  apply good_or_q in K; [|unfold newline; quiets]. destruct K as [K|[K _]].
  - apply newline_sound in K. destruct K as [nl [-> K]].
    exists ((0x2F%N, a) :: (0x2F%N, b) :: s ++ nl). split.
    + simpl. rewrite <- app_assoc. reflexivity.
    + simpl. rewrite chars_app. apply (LC_line (chars s) (chars nl)); auto.
  - gi. exists ((0x2F%N, a) :: (0x2F%N, b) :: s). split.
    + simpl. reflexivity.
    + simpl. apply (LC_eof (chars s)); auto.
Qed.

Lemma line_comment_ne s rest : line_comment_at s rest -> exists t, s = (0x2F :: 0x2F :: t)%N.
Proof. destruct 1; eexists; reflexivity. Qed.

Lemma comment_failed ts : ~ prefix (str "//") (chars ts) -> failed (comment ts).
Proof.
  intros H. unfold comment. apply failed_map, failed_then1, failed_begin_comment.
  exact H.
Qed.

(** *** Block comments *)

Scheme block_ind2 := Minimality for block Sort Prop
  with block_rest_ind2 := Minimality for block_rest Sort Prop.
Combined Scheme block_both from block_ind2, block_rest_ind2.

Definition ml_item (p : parser unit) : parser unit :=
  p_choice [ p; p_ignored (p_none_of 0x2A%N);
    p_ignored (p_then_ignore (p_just 0x2A%N) (p_rewind (p_none_of 0x2F%N))) ].

Lemma ml_rec_eq n : @ml_comment_rec Sp E (S n) =
  p_delimited (p_ignored (p_repeated (ml_item (ml_comment_rec n))))
    (begin_comment 0x2A%N) (p_just_str (str "*/")).
Proof. reflexivity. Qed.

Lemma block_rest_end st t : block_rest st t -> exists t0, t = t0 ++ str "*/".
Proof.
  induction 1.
  - exists []. reflexivity.
  - destruct IHblock_rest as [t0 ->]. exists (s ++ t0). rewrite app_assoc. reflexivity.
  - destruct IHblock_rest as [t0 ->]. exists (c :: t0). reflexivity.
  - destruct IHblock_rest as [t0 ->]. exists (0x2A%N :: t0). reflexivity.
Qed.

Lemma ml_sound n : forall ts u rest, good (ml_comment_rec n ts) u rest ->
  exists s, ts = s ++ rest /\ block false (chars s).
Proof.
  induction n as [|n IH]; intros ts u rest G.
  - destruct G as [[_ [? H]] _]. discriminate.
  - rewrite ml_rec_eq in G. gi.
    match goal with H : good (begin_comment _ _) _ _ |- _ =>
      apply good_begin_comment in H; destruct H as [a [b ->]] end.
    match goal with H : good (p_repeated _ _) _ _ |- _ => rename H into K end.
    apply good_repeated in K. destruct K as [K _].
    match goal with H : chars ?x = str "*/" |- _ => rename x into w; rename H into W end.
    assert (forall ts l mid, chain (ml_item (ml_comment_rec n)) ts l mid ->
      mid = w ++ rest ->
      exists t, ts = t ++ rest /\ block_rest false (chars t)) as L.
    { clear K. induction 1 as [ts|ts [] r1 l mid G Ch IHc]; intros ->.
      - exists w. rewrite W. split; [reflexivity|constructor].
      - destruct (IHc eq_refl) as [t [-> T]].
        apply good_choice3 in G. destruct G as [G|[[_ G]|[_ [_ G]]]].
        + apply IH in G. destruct G as [s [-> S]]. exists (s ++ t).
          rewrite app_assoc, chars_app. split; [reflexivity|]. constructor; auto.
        + gi. match goal with |- exists s, ?a :: _ = _ /\ _ => exists (a :: t) end.
          split; [reflexivity|]. simpl.
          constructor; [auto| |discriminate]. lia.
        + gi. match goal with |- exists s, ?a :: _ = _ /\ _ => exists (a :: t) end.
          split; [reflexivity|]. simpl.
          constructor; [auto|].
          destruct (block_rest_end _ _ T) as [t0 Ht].
          destruct t as [|[c sp] t]; [simpl in Ht; destruct t0; discriminate|].
          match goal with H : ((c, sp) :: t) ++ rest = _ |- _ => inversion H; subst end.
          simpl. intros X. inversion X; subst. discriminate. }
    destruct (L _ _ _ K eq_refl) as [t [-> T]].
    exists ((0x2F%N, a) :: (0x2A%N, b) :: t). split; [reflexivity|].
    simpl. apply (Block false (chars t)). exact T.
Qed.

Lemma ml_rec_failed n ts : ~ prefix (str "/*") (chars ts) ->
  failed (@ml_comment_rec Sp E n ts).
Proof.
  intros H. destruct n as [|n]; [eexists; reflexivity|].
  rewrite ml_rec_eq. apply failed_then_ignore1, failed_ignore_then1, failed_begin_comment.
  exact H.
Qed.

Lemma ml_item_end n a b (rest : toks) :
  failed (ml_item (ml_comment_rec n) ((0x2A%N, a) :: (0x2F%N, b) :: rest)).
Proof.
  apply failed_choice.
  - apply ml_rec_failed. intros [u U]. discriminate.
  - intros ?. apply failed_choice.
    + apply failed_map, failed_filter. reflexivity.
    + intros ?. apply failed_choice; [|intros; apply failed_choice_nil].
      apply failed_map. eapply failed_then_ignore2; [apply succ_just|].
      assert (failed (p_none_of 0x2F%N ((0x2F%N, b) :: rest))) as [e F]
        by (apply failed_filter; reflexivity).
      exists e. unfold p_rewind. cbn [r_out]. rewrite F. reflexivity.
Qed.

Lemma ml_complete_both :
  (forall s, block true s -> forall n u rest, chars u = s -> List.length s <= n ->
     succ (@ml_comment_rec Sp E n (u ++ rest)) tt rest) /\
  (forall t, block_rest true t -> forall n u rest, chars u = t -> List.length t <= n ->
     exists v w l, u = v ++ w /\ chars w = str "*/"
       /\ schain (ml_item (@ml_comment_rec Sp E n)) (u ++ rest) l (w ++ rest)).
Proof.
  apply block_both.
  - intros t _ IH n u rest Hu Hn.
    destruct n as [|n]; [simpl in Hn; lia|].
    destruct u as [|[c1 s1] [|[c2 s2] u]]; inversion Hu; subst. clear Hu.
    simpl in Hn.
    destruct (IH n u rest eq_refl) as [v [w [l [-> [W Ch]]]]]; [lia|].
    rewrite ml_rec_eq. cbn [app].
    eapply succ_delimited.
    + apply succ_begin_comment.
    + eapply succ_ignored. apply succ_repeated; [exact Ch|].
      destruct w as [|[x sx] [|[y sy] [|? ?]]]; inversion W; subst.
      apply ml_item_end.
    + apply succ_just_str. exact W.
  - intros n u rest Hu _. exists [], u, []. split; [reflexivity|]. split; [exact Hu|].
    constructor.
  - intros s t Hb IHs _ IHt n u rest Hu Hn.
    apply chars_split in Hu. destruct Hu as [u1 [u2 [-> [H1 H2]]]].
    rewrite app_length in Hn.
    destruct (IHt n u2 rest H2) as [v [w [l [-> [W Ch]]]]]; [lia|].
    exists (u1 ++ v), w, (tt :: l). rewrite app_assoc. split; [reflexivity|].
    split; [exact W|].
    apply SChain_cons with (r1 := (v ++ w) ++ rest); [| |exact Ch].
    + apply succ_choice_hit. rewrite <- !app_assoc. rewrite app_assoc. rewrite <- app_assoc.
      specialize (IHs n u1 (v ++ w ++ rest) H1). apply IHs. lia.
    + assert (u1 <> []) as N.
      { intros ->. simpl in H1. subst s. inversion Hb. }
      rewrite <- !app_assoc. rewrite !app_length.
      destruct u1; [congruence|simpl; lia].
  - intros c t _ IH Hc Hs n u rest Hu Hn.
    apply chars_cons in Hu. destruct Hu as [sp [u' [-> H2]]].
    simpl in Hn. destruct (IH n u' rest H2) as [v [w [l [-> [W Ch]]]]]; [lia|].
    exists ((c, sp) :: v), w, (tt :: l). split; [reflexivity|]. split; [exact W|].
    cbn [app]. eapply SChain_cons; [|cbn [List.length]; apply Nat.lt_succ_diag_r|exact Ch].
    apply succ_choice_miss.
    + apply ml_rec_failed. intros [x X]. simpl in X. inversion X; subst.
      apply (Hs eq_refl eq_refl).
      destruct (v ++ w) as [|[d sd] z] eqn:Q.
      * destruct v; [|discriminate]. simpl in Q. subst w. discriminate.
      * simpl in H1. inversion H1; subst. reflexivity.
    + intros ?. apply succ_choice_hit. eapply succ_ignored, succ_filter.
      apply negb_true_iff. lia.
  - intros t _ IH Hs n u rest Hu Hn.
    apply chars_cons in Hu. destruct Hu as [sp [u' [-> H2]]].
    simpl in Hn. destruct (IH n u' rest H2) as [v [w [l [-> [W Ch]]]]]; [lia|].
    exists ((0x2A%N, sp) :: v), w, (tt :: l). split; [reflexivity|]. split; [exact W|].
    cbn [app]. eapply SChain_cons; [|cbn [List.length]; apply Nat.lt_succ_diag_r|exact Ch].
    apply succ_choice_miss.
    + apply ml_rec_failed. intros [x X]. discriminate.
    + intros ?. apply succ_choice_miss.
      * apply failed_map, failed_filter. reflexivity.
      * intros ?. apply succ_choice_hit. eapply succ_ignored.
        destruct (v ++ w) as [|[d sd] z] eqn:Q.
        { destruct v; [|discriminate]. simpl in Q. subst w. discriminate. }
        eapply succ_then_ignore; [apply succ_just|].
        cbn [app]. eapply succ_rewind. apply succ_filter.
        apply negb_true_iff. apply N.eqb_neq. intros ->. subst t. apply Hs. reflexivity.
Qed.

Ltac wsx := unfold ws_chars, newline_chars in *; cbn [In] in *; lia.

Lemma ml_comment_complete u rest : block true (chars u) ->
  succ (ml_comment (u ++ rest)) tt rest.
Proof.
  intros H. unfold ml_comment. apply succ_map_err_with_span.
  apply (proj1 ml_complete_both (chars u) H); [reflexivity|].
  rewrite chars_len, app_length. lia.
Qed.

Lemma ml_comment_sound ts u rest : good (ml_comment ts) u rest ->
  exists s, ts = s ++ rest /\ block false (chars s).
Proof.
  unfold ml_comment. intros G. apply good_map_err_with_span in G.
  eapply ml_sound; eauto.
Qed.

Lemma ml_comment_failed ts : ~ prefix (str "/*") (chars ts) -> failed (ml_comment ts).
Proof. intros H. apply failed_map_err_with_span, ml_rec_failed, H. Qed.

Lemma block_start st s : block st s -> exists t, s = (0x2F :: 0x2A :: t)%N.
Proof. destruct 1. eexists; reflexivity. Qed.

(** *** Space *)

Lemma many_app R s : forall t rest, many R s (t ++ rest) -> many R t rest ->
  many R (s ++ t) rest.
Proof.
  intros t rest H. remember (t ++ rest) as r. induction H as [r|s1 s2 r H1 H2 IH]; subst.
  - auto.
  - intros T. rewrite <- app_assoc. constructor; [|auto].
    rewrite <- app_assoc. exact H1.
Qed.

Lemma many_one (R : text -> text -> Prop) s rest : R s rest -> many R s rest.
Proof.
  intros H. rewrite <- (app_nil_r s). constructor; [exact H|constructor].
Qed.

Lemma many_impl (R Q : text -> text -> Prop) s rest :
  (forall a b, R a b -> Q a b) -> many R s rest -> many Q s rest.
Proof. intros H. induction 1; constructor; auto. Qed.

(** A chain of steps, each of which is a run of elements. *)
Lemma chain_many (p : parser unit) R :
  (forall ts u rest, good (p ts) u rest ->
     exists s, ts = s ++ rest /\ many R (chars s) (chars rest)) ->
  forall ts l rest, chain p ts l rest ->
  exists s, ts = s ++ rest /\ many R (chars s) (chars rest).
Proof.
  intros H ts l rest Ch. induction Ch as [ts|ts a r1 l rest G Ch [s2 [-> M]]].
  - exists []. split; [reflexivity|constructor].
  - apply H in G. destruct G as [s1 [-> M1]]. exists (s1 ++ s2).
    rewrite <- app_assoc. split; [reflexivity|]. rewrite chars_app.
    apply many_app; [|auto]. rewrite <- chars_app. exact M1.
Qed.

Lemma chain_ws_chars ts l rest : chain (@ws_char Sp E) ts l rest ->
  exists s, ts = s ++ rest /\ Forall (fun c => In c ws_chars) (chars s).
Proof.
  induction 1 as [ts|ts a r1 l rest G Ch [s2 [-> M]]].
  - exists []. split; [reflexivity|constructor].
  - unfold ws_char in G. gi.
    match goal with |- exists s, ?a :: _ = _ /\ _ => exists (a :: s2) end.
    split; [reflexivity|]. simpl. constructor; [|auto]. apply ws_char_spec; auto.
Qed.

Lemma ws_chars_many st s rest : Forall (fun c => In c ws_chars) s ->
  many (ws_at st) s rest.
Proof.
  induction 1 as [|c s H F IH]; [constructor|].
  change (c :: s) with ([c] ++ s). constructor; [constructor; auto|auto].
Qed.

Lemma ws_sound ts u rest : good (ws ts) u rest ->
  exists s, ts = s ++ rest /\ many (ws_at false) (chars s) (chars rest).
Proof.
  unfold ws. intros G. gi. apply good_or_q in G; [|unfold ws_char; quiets].
  destruct G as [G|[G _]].
  - gi. apply good_repeat1 in G. destruct G as [Ch _].
    apply chain_ws_chars in Ch. destruct Ch as [s [-> F]]. exists s.
    split; [reflexivity|]. apply ws_chars_many. exact F.
  - apply ml_comment_sound in G. destruct G as [s [-> B]]. exists s.
    split; [reflexivity|]. apply many_one. constructor. exact B.
Qed.

Lemma schain_ws_chars s rest : Forall (fun c => In c ws_chars) (chars s) ->
  exists l, schain (@ws_char Sp E) (s ++ rest) l rest /\ List.length l = List.length s.
Proof.
  induction s as [|[c sp] s IH]; intros H.
  - exists []. split; [constructor|reflexivity].
  - simpl in H. inversion H; subst. destruct (IH H3) as [l [Ch L]].
    exists (tt :: l). split; [|simpl; auto]. cbn [app].
    eapply SChain_cons; [|cbn [List.length]; apply Nat.lt_succ_diag_r|exact Ch].
    unfold ws_char. eapply succ_ignored, succ_filter. apply ws_char_spec. auto.
Qed.

Lemma ws_run s rest : Forall (fun c => In c ws_chars) (chars s) -> s <> [] ->
  not_ws (chars rest) -> succ (ws (s ++ rest)) tt rest.
Proof.
  intros F N Hr. unfold ws. apply succ_map_err, succ_or_l.
  destruct (schain_ws_chars s rest F) as [l [Ch L]].
  eapply succ_ignored. apply succ_repeat1 with (l := l); [exact Ch| |].
  - unfold ws_char. apply failed_map, failed_filter_iff.
    destruct (chars rest); [exact I|]. simpl in Hr.
    destruct (is_ws_char c) eqn:X; [|reflexivity]. apply ws_char_spec in X. contradiction.
  - destruct l; [destruct s; [congruence|discriminate]|discriminate].
Qed.

Lemma ws_char_failed ts : not_ws (chars ts) -> failed (p_repeat 1 None (@ws_char Sp E) ts).
Proof.
  intros Hr. apply failed_repeat1; [discriminate|].
  unfold ws_char. apply failed_map, failed_filter_iff.
  destruct (chars ts); [exact I|]. simpl in Hr.
  destruct (is_ws_char c) eqn:X; [|reflexivity]. apply ws_char_spec in X. contradiction.
Qed.

Lemma ws_block s rest : block true (chars s) -> succ (ws (s ++ rest)) tt rest.
Proof.
  intros B. unfold ws. apply succ_map_err, succ_or_r.
  - apply failed_map. apply ws_char_failed. rewrite chars_app.
    destruct (block_start _ _ B) as [t ->]. simpl. intros X. wsx.
  - apply ml_comment_complete. exact B.
Qed.

Lemma ws_failed ts : not_ws (chars ts) -> ~ prefix (str "/*") (chars ts) ->
  failed (ws ts).
Proof.
  intros H N. unfold ws. apply failed_map_err, failed_or.
  - apply failed_map, ws_char_failed, H.
  - apply ml_comment_failed, N.
Qed.

Lemma ws_succ_char c sp (rest : toks) : In c ws_chars ->
  exists r, succ (ws ((c, sp) :: rest)) tt r.
Proof.
  intros H.
  assert (exists s r, (c, sp) :: rest = s ++ r /\ s <> []
    /\ Forall (fun c => In c ws_chars) (chars s) /\ not_ws (chars r)) as K.
  { revert c sp H. induction rest as [|[d sd] rest IH]; intros c sp H.
    - exists [(c, sp)], []. split; [reflexivity|]. split; [discriminate|].
      split; [apply Forall_cons; [exact H|constructor]|exact I].
    - destruct (in_dec N.eq_dec d ws_chars) as [D|D].
      + destruct (IH d sd D) as [s [r [X [Y [Z W]]]]]. exists ((c, sp) :: s), r.
        split; [exact (f_equal (cons (c, sp)) X)|]. split; [discriminate|].
        split; [apply Forall_cons; [exact H|exact Z]|exact W].
      + exists [(c, sp)], ((d, sd) :: rest).
        split; [reflexivity|]. split; [discriminate|].
        split; [apply Forall_cons; [exact H|constructor]|exact D]. }
  destruct K as [s [r [-> [Y [Z W]]]]]. exists r. apply ws_run; auto.
Qed.

Lemma ws_failed_inv ts : failed (ws ts) -> not_ws (chars ts).
Proof.
  intros F. destruct ts as [|[c sp] ts]; [exact I|]. simpl. intros H.
  destruct (ws_succ_char c sp ts H) as [r S]. eapply succ_failed; eauto.
Qed.

(** Repetition of a parser that takes a run of space characters, or one other
    element, at a time. *)
Lemma space_chain (p : parser unit) (R : text -> text -> Prop) :
  (forall s rest, Forall (fun c => In c ws_chars) (chars s) -> s <> [] ->
     not_ws (chars rest) -> succ (p (s ++ rest)) tt rest) ->
  (forall s rest, R (chars s) (chars rest) -> not_ws (chars s) ->
     s <> [] /\ succ (p (s ++ rest)) tt rest) ->
  (forall c s rest, R (c :: s) rest -> In c ws_chars -> s = []) ->
  (forall rest, ~ R [] rest) ->
  forall n s rest, List.length s <= n -> many R (chars s) (chars rest) ->
  not_ws (chars rest) ->
  exists l, schain p (s ++ rest) l rest /\ (s <> [] -> l <> []).
Proof.
  intros H1 H2 H3 H4.
  assert (forall s rest, many R s rest -> not_ws rest ->
    exists cs t, s = cs ++ t /\ Forall (fun c => In c ws_chars) cs
      /\ many R t rest /\ not_ws (t ++ rest)) as Split.
  { induction 1 as [rest|s t rest Hs Ht IH]; intros Hr.
    - exists [], []. split; [reflexivity|]. split; [constructor|].
      split; [constructor|exact Hr].
    - destruct s as [|c s]; [exfalso; eapply H4; eauto|].
      destruct (in_dec N.eq_dec c ws_chars) as [I|I].
      + pose proof (H3 _ _ _ Hs I) as ->.
        destruct (IH Hr) as [cs [t' [-> [X [Y Z]]]]].
        exists (c :: cs), t'. split; [reflexivity|]. split; [constructor; auto|].
        split; auto.
      + exists [], (c :: s ++ t). split; [reflexivity|]. split; [constructor|].
        split; [|exact I].
        change (c :: s ++ t) with ((c :: s) ++ t). constructor; auto. }
  induction n as [|n IH]; intros s rest L M Hr.
  - destruct s; [|simpl in L; lia]. exists []. split; [constructor|congruence].
  - destruct (Split _ _ M Hr) as [cs [t [Es [Fc [Mt Nt]]]]].
    apply chars_split in Es. destruct Es as [u [v [-> [Hu Hv]]]]. subst cs t.
    destruct u as [|x u].
    + cbn [app] in *. remember (chars v) as cv. remember (chars rest) as cr.
      destruct Mt as [r|s1 t r Hs Ht].
      * symmetry in Heqcv. apply chars_nil in Heqcv. subst v. exists [].
        split; [constructor|congruence].
      * symmetry in Heqcv. apply chars_split in Heqcv.
        destruct Heqcv as [v1 [v2 [-> [X Y]]]]. subst.
        rewrite <- chars_app in Hs.
        assert (not_ws (chars v1)) as Nv.
        { destruct (chars v1) eqn:Q; [exact I|]. exact Nt. }
        destruct (H2 _ _ Hs Nv) as [Ne S].
        destruct (IH v2 rest) as [l [Ch _]]; [|exact Ht|exact Hr|].
        { destruct v1; [congruence|]. rewrite app_length in L. simpl in L. lia. }
        exists (tt :: l). split; [|discriminate]. rewrite <- app_assoc.
        econstructor; [exact S| |exact Ch].
        destruct v1; [congruence|]. rewrite !app_length. simpl. lia.
    + destruct (IH v rest) as [l [Ch _]]; [|exact Mt|exact Hr|].
      { rewrite app_length in L. simpl in L. lia. }
      exists (tt :: l). split; [|discriminate]. rewrite <- app_assoc.
      econstructor; [|  |exact Ch].
      * apply H1; [exact Fc|discriminate|]. rewrite chars_app. exact Nt.
      * rewrite !app_length. simpl. lia.
Qed.

Lemma ws_at_ne st s rest : ws_at st s rest -> s <> [].
Proof.
  intros H X. subst. inversion H; subst.
  match goal with B : block _ [] |- _ => inversion B end.
Qed.

Lemma ws_repeated s rest : many (ws_at true) (chars s) (chars rest) ->
  not_ws (chars rest) -> ~ prefix (str "/*") (chars rest) ->
  exists l, succ (p_repeated ws (s ++ rest)) l rest.
Proof.
  intros M Hr Hb.
  destruct (space_chain ws (ws_at true) ws_run) with (n := List.length s) (s := s) (rest := rest)
    as [l [Ch _]]; auto.
  - intros u r H N. inversion H; subst.
    + exfalso. rewrite <- H0 in N. simpl in N. contradiction.
    + split; [|apply ws_block; auto]. intros ->.
      match goal with B : block _ (chars []) |- _ => inversion B end.
  - intros c u r H I. inversion H; subst; auto.
    match goal with B : block _ _ |- _ => apply block_start in B; destruct B as [t X] end.
    inversion X; subst. exfalso. wsx.
  - intros r H. apply ws_at_ne in H. congruence.
  - exists l. apply succ_repeated; [exact Ch|]. apply ws_failed; auto.
Qed.

(** *** Line continuations and node space *)

Lemma esc_line_sound ts u rest : good (esc_line ts) u rest ->
  exists s, ts = s ++ rest /\ nspace_at false (chars s) (chars rest).
Proof.
  unfold esc_line. intros G. gi.
  match goal with H : good (p_repeated ws _) _ _ |- _ =>
    apply good_repeated in H; destruct H as [Ch _] end.
  apply (chain_many ws (ws_at false) ws_sound) in Ch. destruct Ch as [s1 [-> M]].
  match goal with H : good (p_or comment newline _) _ _ |- _ =>
    apply good_or_q in H; [|apply quiet_comment] end.
  match goal with H : _ \/ _ |- _ => destruct H as [G|[G _]] end.
  - apply comment_sound in G. destruct G as [t [-> T]].
    match goal with |- exists s, ?a :: _ = _ /\ _ => exists (a :: s1 ++ t) end.
    cbn [app]. rewrite app_assoc. split; [reflexivity|]. simpl. rewrite chars_app.
    apply NS_esc_comment; [rewrite <- chars_app|]; auto.
  - apply newline_sound in G. destruct G as [t [-> T]].
    match goal with |- exists s, ?a :: _ = _ /\ _ => exists (a :: s1 ++ t) end.
    cbn [app]. rewrite app_assoc. split; [reflexivity|]. simpl. rewrite chars_app.
    apply NS_esc_newline; [rewrite <- chars_app|]; auto.
Qed.

Lemma node_space_sound ts u rest : good (node_space ts) u rest ->
  exists s, ts = s ++ rest /\ many (nspace_at false) (chars s) (chars rest).
Proof.
  unfold node_space. intros G. apply good_or_q in G; [|apply quiet_ws].
  destruct G as [G|[G _]].
  - apply ws_sound in G. destruct G as [s [-> M]]. exists s. split; [reflexivity|].
    eapply many_impl; [|exact M]. intros a b H. apply NS_ws. exact H.
  - apply esc_line_sound in G. destruct G as [s [-> M]]. exists s.
    split; [reflexivity|]. apply many_one. exact M.
Qed.

Lemma node_spaces_sound ts l rest : good (p_repeated node_space ts) l rest ->
  exists s, ts = s ++ rest /\ nspaces false s rest /\ not_ws (chars rest).
Proof.
  intros G. apply good_repeated in G. destruct G as [Ch F].
  apply (chain_many _ _ node_space_sound) in Ch. destruct Ch as [s [-> M]].
  exists s. split; [reflexivity|]. split; [exact M|].
  destruct (out_dec (ws rest)) as [W|[a [r [alt W]]]]; [apply ws_failed_inv, W|].
  exfalso. eapply succ_failed; [|exact F]. apply succ_or_l.
  split; [apply quiet_ws|eauto].
Qed.

Lemma node_spaces1_sound ts l rest : good (p_repeat 1 None node_space ts) l rest ->
  exists s, ts = s ++ rest /\ nspaces false s rest /\ not_ws (chars rest) /\ s <> [].
Proof.
  intros G. apply good_repeat1 in G. destruct G as [Ch [F N]].
  pose proof Ch as Ch2.
  apply (chain_many _ _ node_space_sound) in Ch. destruct Ch as [s [-> M]].
  exists s. split; [reflexivity|]. split; [exact M|]. split.
  - destruct (out_dec (ws rest)) as [W|[a [r [alt W]]]]; [apply ws_failed_inv, W|].
    exfalso. eapply succ_failed; [|exact F]. apply succ_or_l.
    split; [apply quiet_ws|eauto].
  - intros ->. cbn [app] in *. destruct l as [|a l]; [congruence|].
    inversion Ch2; subst.
    match goal with H : good (node_space rest) _ _ |- _ => eapply good_failed; [exact H|exact F] end.
Qed.

(** Where node space ends. *)
Definition ns_stop (t : text) : Prop :=
  not_ws t /\ ~ prefix (str "/*") t /\ hd_error t <> Some 0x5C%N.

Lemma node_space_failed ts : ns_stop (chars ts) -> failed (node_space ts).
Proof.
  intros [H1 [H2 H3]]. unfold node_space. apply failed_or; [apply ws_failed; auto|].
  unfold esc_line. apply failed_ignore_then1, failed_ignore_then1, failed_just_iff. exact H3.
Qed.

Lemma esc_line_complete sp s t rest :
  many (ws_at true) (chars s) (chars (t ++ rest)) ->
  line_comment_at (chars t) (chars rest) \/ newline_at (chars t) (chars rest) ->
  succ (esc_line ((0x5C%N, sp) :: s ++ t ++ rest)) tt rest.
Proof.
  intros M T. unfold esc_line.
  assert (not_ws (chars (t ++ rest)) /\ ~ prefix (str "/*") (chars (t ++ rest))) as [N1 N2].
  { rewrite chars_app. destruct T as [T|T].
    - apply line_comment_ne in T. destruct T as [x ->]. split.
      + simpl. intros I. wsx.
      + intros [y Y]. discriminate.
    - apply newline_at_ne in T. destruct T as [c [x [-> I]]]. split.
      + simpl. intros J. apply newline_char_spec in I. wsx.
      + intros [y Y]. simpl in Y. apply newline_char_spec in I.
        inversion Y; subst. lia. }
  destruct (ws_repeated s (t ++ rest) M N1 N2) as [l S].
  eapply succ_ignore_then; [eapply succ_ignore_then; [apply succ_just|exact S]|].
  destruct T as [T|T].
  - apply succ_or_l. apply comment_complete. exact T.
  - apply succ_or_r; [|apply newline_complete; exact T].
    apply comment_failed. rewrite chars_app. intros [y Y].
    apply newline_at_ne in T. destruct T as [c [x [X I]]]. rewrite X in Y.
    inversion Y; subst. apply newline_char_spec in I. lia.
Qed.

Lemma nspace_start st s rest : nspace_at st s rest ->
  exists c t, s = c :: t /\ (In c ws_chars \/ c = 0x2F%N \/ c = 0x5C%N).
Proof.
  destruct 1 as [s rest H|s t rest _ _|s t rest _ _];
    [|exists 0x5C%N, (s ++ t); split; [reflexivity|auto]..].
  destruct H as [c rest I|s rest B]; [exists c, []; auto|].
  apply block_start in B. destruct B as [t ->]. eexists; eexists; split; [reflexivity|auto].
Qed.

Lemma node_space_element s rest : nspace_at true (chars s) (chars rest) ->
  not_ws (chars s) -> s <> [] /\ succ (node_space (s ++ rest)) tt rest.
Proof.
  intros H N. split.
  { intros ->. apply nspace_start in H. destruct H as [c [t [X _]]]. discriminate. }
  unfold node_space. remember (chars s) as cs. remember (chars rest) as cr.
  destruct H as [s0 r W|s0 t r M T|s0 t r M T].
  - destruct W as [c r I|s0 r B].
    + simpl in N. contradiction.
    + subst. apply succ_or_l. apply ws_block. auto.
  - symmetry in Heqcs. apply chars_cons in Heqcs. destruct Heqcs as [sp [u [-> Hu]]].
    apply chars_split in Hu. destruct Hu as [u1 [u2 [-> [X Y]]]]. subst.
    cbn [app]. rewrite <- app_assoc. apply succ_or_r.
    + apply ws_failed; simpl; [intros I; wsx|].
      intros [y Y]. discriminate.
    + apply esc_line_complete; [rewrite chars_app|left]; auto.
  - symmetry in Heqcs. apply chars_cons in Heqcs. destruct Heqcs as [sp [u [-> Hu]]].
    apply chars_split in Hu. destruct Hu as [u1 [u2 [-> [X Y]]]]. subst.
    cbn [app]. rewrite <- app_assoc. apply succ_or_r.
    + apply ws_failed; simpl; [intros I; wsx|].
      intros [y Y]. discriminate.
    + apply esc_line_complete; [rewrite chars_app|right]; auto.
Qed.

Lemma node_spaces_chain s rest : nspaces true s rest -> not_ws (chars rest) ->
  exists l, schain node_space (s ++ rest) l rest /\ (s <> [] -> l <> []).
Proof.
  intros M Hr.
  apply (space_chain node_space (nspace_at true)) with (n := List.length s); auto.
  - intros u r F N Nr. unfold node_space. apply succ_or_l, ws_run; auto.
  - apply node_space_element.
  - intros c u r H I. inversion H; subst.
    + match goal with W : ws_at _ _ _ |- _ => inversion W; subst; auto end.
      match goal with B : block _ _ |- _ => apply block_start in B; destruct B as [t X] end.
      inversion X; subst. exfalso. wsx.
    + exfalso. wsx.
    + exfalso. wsx.
  - intros r H. apply nspace_start in H. destruct H as [c [t [X _]]]. discriminate.
Qed.

Lemma node_spaces_complete s rest : nspaces true s rest -> ns_stop (chars rest) ->
  exists l, succ (p_repeated node_space (s ++ rest)) l rest.
Proof.
  intros M H. destruct (node_spaces_chain s rest M (proj1 H)) as [l [Ch _]].
  exists l. apply succ_repeated; [exact Ch|apply node_space_failed, H].
Qed.

Lemma node_spaces1_complete s rest : nspaces true s rest -> ns_stop (chars rest) ->
  s <> [] -> exists l, succ (p_repeat 1 None node_space (s ++ rest)) l rest.
Proof.
  intros M H N. destruct (node_spaces_chain s rest M (proj1 H)) as [l [Ch Nl]].
  exists l. apply succ_repeat1; [exact Ch|apply node_space_failed, H|auto].
Qed.

(** *** Space between nodes *)

Lemma line_space_sound ts u rest : good (line_space ts) u rest ->
  exists s, ts = s ++ rest /\ many (lspace_at false) (chars s) (chars rest).
Proof.
  unfold line_space. intros G.
  apply good_or_q in G; [|apply quiet_or; [apply quiet_newline|apply quiet_ws]].
  destruct G as [G|[G _]].
  - apply good_or_q in G; [|apply quiet_newline]. destruct G as [G|[G _]].
    + apply newline_sound in G. destruct G as [s [-> M]]. exists s.
      split; [reflexivity|]. apply many_one, LS_newline, M.
    + apply ws_sound in G. destruct G as [s [-> M]]. exists s. split; [reflexivity|].
      eapply many_impl; [|exact M]. intros a b H. apply LS_ws. exact H.
  - apply comment_sound in G. destruct G as [s [-> M]]. exists s.
    split; [reflexivity|]. apply many_one, LS_comment, M.
Qed.

Lemma line_space_failed_ws rest : failed (line_space rest) -> not_ws (chars rest).
Proof.
  intros F. destruct rest as [|[c sp] rest]; [exact I|]. simpl. intros I.
  destruct (ws_succ_char c sp rest I) as [r S].
  eapply succ_failed; [|exact F]. unfold line_space. apply succ_or_l.
  apply succ_or_r; [|exact S]. apply newline_failed. unfold chars; cbn [map fst].
  intros X. wsx.
Qed.

Lemma line_spaces_sound ts l rest : good (p_repeated line_space ts) l rest ->
  exists s, ts = s ++ rest /\ lspaces false s rest /\ not_ws (chars rest).
Proof.
  intros G. apply good_repeated in G. destruct G as [Ch F].
  apply (chain_many _ _ line_space_sound) in Ch. destruct Ch as [s [-> M]].
  exists s. split; [reflexivity|]. split; [exact M|].
  apply line_space_failed_ws, F.
Qed.

Definition ls_stop (t : text) : Prop :=
  not_ws t /\ ~ prefix (str "/*") t /\ ~ prefix (str "//") t
  /\ match t with [] => True | c :: _ => ~ In c newline_chars end.

Lemma line_space_failed ts : ls_stop (chars ts) -> failed (line_space ts).
Proof.
  intros [H1 [H2 [H3 H4]]]. unfold line_space. repeat apply failed_or.
  - apply newline_failed; auto.
  - apply ws_failed; auto.
  - apply comment_failed; auto.
Qed.

Lemma line_space_element s rest : lspace_at true (chars s) (chars rest) ->
  not_ws (chars s) -> s <> [] /\ succ (line_space (s ++ rest)) tt rest.
Proof.
  intros H N. unfold line_space. inversion H; subst.
  - match goal with X : newline_at _ _ |- _ => rename X into T end. split.
    + intros ->. apply newline_at_ne in T. destruct T as [c [t [X _]]]. discriminate.
    + do 2 apply succ_or_l. apply newline_complete. exact T.
  - match goal with X : ws_at _ _ _ |- _ => inversion X; subst end.
    + exfalso. match goal with X : [_] = chars s |- _ => rewrite <- X in N end.
      simpl in N. contradiction.
    + match goal with X : block _ _ |- _ => rename X into B end. split.
      * intros ->. inversion B.
      * apply succ_or_l, succ_or_r; [|apply ws_block; auto].
        apply newline_failed. rewrite chars_app. apply block_start in B.
        destruct B as [t ->]. simpl. wsx.
  - match goal with X : line_comment_at _ _ |- _ => rename X into T end. split.
    + intros ->. apply line_comment_ne in T. destruct T as [t X]. discriminate.
    + pose proof T as T2. apply line_comment_ne in T2. destruct T2 as [t X].
      apply succ_or_r; [|apply comment_complete; exact T].
      apply failed_or.
      * apply newline_failed. rewrite chars_app, X. simpl. wsx.
      * apply ws_failed; rewrite chars_app, X; simpl.
        { intros I. wsx. }
        { intros [y Y]. discriminate. }
Qed.

Lemma line_spaces_complete s rest : lspaces true s rest -> ls_stop (chars rest) ->
  exists l, succ (p_repeated line_space (s ++ rest)) l rest.
Proof.
  intros M H.
  destruct (space_chain line_space (lspace_at true)) with (n := List.length s) (s := s)
    (rest := rest) as [l [Ch _]]; auto.
  - intros u r F N Nr. unfold line_space. apply succ_or_l, succ_or_r.
    + apply newline_failed. rewrite chars_app. destruct u as [|[c sp] u]; [congruence|].
      unfold chars in *; cbn [map fst app] in *. inversion F; subst. intros X.
      match goal with I : In c ws_chars |- _ => wsx end.
    + apply ws_run; auto.
  - apply line_space_element.
  - intros c u r X I. inversion X; subst.
    + match goal with T : newline_at _ _ |- _ => apply newline_at_ne in T;
        destruct T as [d [t [Y J]]] end.
      inversion Y; subst. apply newline_char_spec in J. exfalso. wsx.
    + match goal with W : ws_at _ _ _ |- _ => inversion W; subst; auto end.
      match goal with B : block _ _ |- _ => apply block_start in B; destruct B as [t Y] end.
      inversion Y; subst. exfalso. wsx.
    + match goal with T : line_comment_at _ _ |- _ => apply line_comment_ne in T;
        destruct T as [t Y] end.
      inversion Y; subst. exfalso. wsx.
  - intros r X. inversion X; subst.
    + match goal with T : newline_at _ _ |- _ => apply newline_at_ne in T;
        destruct T as [d [t [Y J]]] end. discriminate.
    + match goal with W : ws_at _ _ _ |- _ => apply ws_at_ne in W end. congruence.
    + match goal with T : line_comment_at _ _ |- _ => apply line_comment_ne in T;
        destruct T as [t Y] end. discriminate.
  - apply H.
  - exists l. apply succ_repeated; [exact Ch|apply line_space_failed, H].
Qed.

(** *** Terminators *)

Lemma terminator_sound ts u rest : good (node_terminator ts) u rest ->
  exists s, ts = s ++ rest /\ terminator_at (chars s) (chars rest).
Proof.
  unfold node_terminator. intros G. apply good_choice4 in G.
  destruct G as [G|[G|[G|G]]].
  - apply newline_sound in G. destruct G as [s [-> M]]. exists s.
    split; [reflexivity|]. apply Term_newline, M.
  - apply comment_sound in G. destruct G as [s [-> M]]. exists s.
    split; [reflexivity|]. apply Term_comment, M.
  - gi. match goal with |- exists s, ?a :: _ = _ /\ _ => exists [a] end.
    split; [reflexivity|]. apply Term_semicolon.
  - gi. exists []. split; [reflexivity|]. apply Term_eof.
Qed.

Lemma terminator_complete s rest : terminator_at (chars s) (chars rest) ->
  succ (node_terminator (s ++ rest)) tt rest.
Proof.
  intros H. unfold node_terminator. inversion H; subst.
  - apply succ_choice_hit, newline_complete. auto.
  - match goal with X : line_comment_at _ _ |- _ => rename X into T end.
    pose proof T as T2. apply line_comment_ne in T2. destruct T2 as [t X].
    apply succ_choice_miss.
    + apply newline_failed. rewrite chars_app, X. simpl. wsx.
    + intros ?. apply succ_choice_hit, comment_complete. auto.
  - match goal with X : [_] = chars s |- _ => symmetry in X; apply chars_singleton in X;
      destruct X as [sp ->] end.
    apply succ_choice_miss.
    + apply newline_failed. simpl. wsx.
    + intros ?. apply succ_choice_miss.
      * apply comment_failed. intros [y Y]. discriminate.
      * intros ?. apply succ_choice_hit. eapply succ_ignored, succ_just.
  - match goal with X : [] = chars s |- _ => symmetry in X; apply chars_nil in X end.
    match goal with X : [] = chars rest |- _ => symmetry in X; apply chars_nil in X end.
    subst. apply succ_choice_miss; [apply newline_failed; exact I|].
    intros ?. apply succ_choice_miss; [apply comment_failed; intros [y Y]; discriminate|].
    intros ?. apply succ_choice_miss; [apply failed_map, failed_just_nil|].
    intros ?. apply succ_choice_hit, succ_end.
Qed.

End Space.
