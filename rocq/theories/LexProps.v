(** Strings, numbers, comments and names in the document "n ...". *)

From Coq Require Import NArith PeanoNat List Bool String Lia.
From Coq Require Import ZifyBool.
From Verif Require Import Chars Ast Errors Chumsky Spans Grammar DocSafe Kdl KdlText KdlChars
  Layout Good GrammarNear LexSpace LexLit LexIdent PropMap Items Nodes NodesComplete Erase Meaning
  LayoutMeans PrintMeans Observe LayoutProps Template.
Import ListNotations.
Local Open Scope list_scope.
Local Existing Instance unit_env.

Lemma not_accepted t : ~ accepted t -> rejected t.
Proof.
  intros H. destruct (parse_span_returns t) as [[d P]|[e P]]; [|exists e; exact P].
  destruct H. exists d. exact P.
Qed.

Lemma rejected_not t : rejected t -> ~ accepted t.
Proof. intros [e [_ P]] [d Q]. congruence. Qed.

Lemma accepted_means t : accepted t -> exists D, reads t D /\ means false t D.
Proof.
  intros [d P]. exists (without_spans d). split; [exists d; auto|]. apply parse_span_sound, P.
Qed.

Lemma n_name_wf : wf_name (str "n") (str "n").
Proof.
  apply WN_bare; [|discriminate]. apply Bare_plain.
  - split; [|intros X; apply (is_digit_spec 10) in X; [discriminate|lia]]. right.
    apply id_char_spec. reflexivity.
  - intros [X|X]; discriminate.
  - constructor.
  - cbn. intuition discriminate.
Qed.

Definition n_node (items : list (gap * ditem)) : lgap * dlist :=
  ([], DCons None (DNode None (str "n") (str "n") items DNone [] TEof) [] DNil).

Lemma n_node_wf items : wf_items items -> wf (n_node items).
Proof.
  intros W. split; [constructor|]. constructor; [discriminate| |constructor|constructor].
  constructor; try exact I.
  - apply n_name_wf.
  - exact W.
  - constructor.
  - split; [constructor|discriminate].
  - reflexivity.
Qed.

Lemma n_node_render items : render (n_node items) = str "n" ++ render_items items.
Proof. cbn. rewrite !app_nil_r. reflexivity. Qed.

Lemma n_node_content items ps : property_map (item_props items) ps ->
  content (n_node items)
    [Spanned tt (Node None (Spanned tt (str "n")) (item_args items) ps None)].
Proof.
  intros P. apply LCn_cons; [|constructor]. apply (NC None); [exact P|constructor].
Qed.

Lemma n_items_reads items ps : wf_items items -> property_map (item_props items) ps ->
  reads (str "n" ++ render_items items)
    [Spanned tt (Node None (Spanned tt (str "n")) (item_args items) ps None)].
Proof.
  intros W P. rewrite <- n_node_render. apply render_parse_span.
  - apply n_node_wf, W.
  - apply n_node_content, P.
Qed.

Lemma n_arg_reads s l : literal_text s l -> reads (str "n " ++ s) (n_arg l).
Proof.
  intros L.
  pose proof (n_items_reads [(one_space, DArg (DValue None s l))] []) as H.
  cbn in H. rewrite app_nil_r in H. apply H; [|apply property_map_nil].
  constructor; [|constructor]. split; [apply one_space_wf|]. split; [discriminate|].
  split; [exact I|exact L].
Qed.

(** What was read, if the text begins with "n " and the beginning of an item. *)
Lemma n_item_reads c y D : reads (str "n " ++ c :: y) D -> item_char c ->
  exists s R i l ps ch D', c :: y = s ++ R
    /\ @plain_item_at unit unit_env (plain s) i /\ follow R
    /\ property_map (properties_of (i :: l)) ps
    /\ D = Spanned tt (Node None (Spanned tt (str "n")) (arguments_of (i :: l)) ps ch) :: D'.
Proof.
  intros [d [P <-]] C. apply parse_span_sound in P. unfold means in P.
  destruct (n_item false _ _ c y P (plain_chars _) C)
    as [s0 [R [i [l [ps [ch [D' [sn [sd [X [Pi [F [M Q]]]]]]]]]]]]].
  exists (chars s0), (chars R), i, l, ps, ch, D'. rewrite <- unit_toks.
  destruct sn, sd. split; [rewrite X; apply chars_app|]. auto.
Qed.

(** ** Escaped strings *)

Lemma digit_of_fun r c d d' : (r <= 16)%N -> digit_of r c d -> digit_of r c d' -> d = d'.
Proof.
  intros R A B. apply (to_digit_spec r c d R) in A. apply (to_digit_spec r c d' R) in B.
  congruence.
Qed.

Lemma digits_value_fun r t n : (r <= 16)%N -> digits_value r t n ->
  forall m, digits_value r t m -> n = m.
Proof.
  intros R. induction 1 as [|t c n d H IH D]; intros m M.
  - inversion M as [|t' c' n' d' M' D' Q]; [reflexivity|]. destruct t'; discriminate.
  - inversion M as [Q|t' c' n' d' M' D' Q]; [destruct t; discriminate|].
    apply app_inj_tail in Q. destruct Q as [-> ->]. rewrite (IH _ M').
    f_equal. eapply digit_of_fun; eassumption.
Qed.

Lemma digits_value_chars r t n : digits_value r t n -> Forall (digit_char r) t.
Proof.
  induction 1 as [|t c n d H IH D]; [constructor|]. apply Forall_app. split; [exact IH|].
  constructor; [|constructor]. exists d. exact D.
Qed.

Lemma hex_not c : digit_char 16 c -> c <> 0x7D%N /\ c <> 0x22%N /\ c <> 0x5C%N.
Proof.
  intros D. apply (is_digit_spec 16) in D; [|lia]. repeat split; intros ->; discriminate.
Qed.

(** Two splits at the first character that is not in a class. *)
Lemma split_first (P : char -> Prop) a : forall b x y c d, Forall P a -> Forall P b ->
  ~ P c -> ~ P d -> a ++ c :: x = b ++ d :: y -> a = b /\ c = d /\ x = y.
Proof.
  induction a as [|a0 a IH]; intros b x y c d Fa Fb C D Q; destruct b as [|b0 b]; cbn in Q.
  - injection Q as -> ->. auto.
  - injection Q as -> ->. inversion Fb; contradiction.
  - injection Q as -> Q. inversion Fa; contradiction.
  - injection Q as -> Q. inversion Fa; inversion Fb; subst.
    destruct (IH b x y c d) as [-> [-> ->]]; auto.
Qed.

Lemma not_u_escape v : ~ In (0x75%N, v) simple_escapes.
Proof. cbn. intuition discriminate. Qed.

Lemma simple_fun c v v' : In (c, v) simple_escapes -> In (c, v') simple_escapes -> v = v'.
Proof.
  cbn [simple_escapes In]. intros A B.
  repeat (destruct A as [A|A]; [injection A as <- <-;
    repeat (destruct B as [B|B]; [congruence|]); contradiction|]). contradiction.
Qed.

Lemma escape_fun e v e' v' x x' : escape e v -> escape e' v' -> e ++ x = e' ++ x' ->
  e = e' /\ v = v' /\ x = x'.
Proof.
  intros A B Q. destruct A as [c v A|ds v L V S], B as [c' v' B|ds' v' L' V' S'].
  - cbn in Q. injection Q as -> ->. rewrite (simple_fun _ _ _ A B). auto.
  - cbn in Q. injection Q as -> _. destruct (not_u_escape _ A).
  - cbn in Q. injection Q as <- _. destruct (not_u_escape _ B).
  - cbn in Q. injection Q as Q. rewrite <- !app_assoc in Q. cbn [str app] in Q.
    destruct (split_first (digit_char 16) ds ds' x x' 0x7D%N 0x7D%N) as [-> [_ ->]]; auto.
    1-2: eapply digits_value_chars; eassumption.
    1-2: intros X; apply hex_not in X; tauto.
    rewrite (digits_value_fun 16 ds' v ltac:(lia) V v' V'). auto.
Qed.

Lemma string_body_unique s t : string_body s t -> forall s' t' r r', string_body s' t' ->
  s ++ 0x22%N :: r = s' ++ 0x22%N :: r' -> s = s' /\ t = t' /\ r = r'.
Proof.
  induction 1 as [|c s t C1 C2 H IH|e v s t Es H IH]; intros s' t' r r' B Q.
  - destruct B as [|c' s' t' C1' C2' B|e' v' s' t' Es' B]; cbn in Q.
    + injection Q as ->. auto.
    + injection Q as <- _. congruence.
    + discriminate.
  - destruct B as [|c' s' t' C1' C2' B|e' v' s' t' Es' B]; cbn in Q.
    + injection Q as -> _. congruence.
    + injection Q as -> Q. destruct (IH _ _ _ _ B Q) as [-> [-> ->]]. auto.
    + injection Q as -> _. congruence.
  - destruct B as [|c' s' t' C1' C2' B|e' v' s' t' Es' B]; cbn in Q.
    + discriminate.
    + injection Q as <- _. congruence.
    + injection Q as Q. rewrite <- !app_assoc in Q.
      destruct (escape_fun _ _ _ _ _ _ Es Es' Q) as [-> [-> Q']].
      destruct (IH _ _ _ _ B Q') as [-> [-> ->]]. auto.
Qed.

Lemma quote_item : item_char 0x22%N.
Proof. split; [wsx|]. split; [wsx|]. cbn. intuition discriminate. Qed.

(** An item that begins with a double quote. *)
Lemma quote_plain_item s i : @plain_item_at unit unit_env (plain s) i ->
  hd_error s = Some 0x22%N ->
  exists b t r, s = 0x22%N :: b ++ 0x22%N :: r /\ string_body b t
    /\ (r = [] /\ i = Argument (Value None (Spanned tt (LString t)))
        \/ exists v r', r = 0x3D%N :: r' /\ i = Property (Spanned tt t) v).
Proof.
  intros P H. remember (plain s) as u eqn:U.
  assert (chars u = s) as Cu by (subst; apply plain_chars). clear U.
  assert (forall a t, string_text a t -> hd_error a = Some 0x22%N ->
    exists b, a = 0x22%N :: b ++ [0x22%N] /\ string_body b t) as K.
  { intros a t [a' t' R|a' t' Es] Ha; [destruct R; discriminate|]. destruct Es. eauto. }
  destruct P as [u v V|sk e u k v Kt Ee V].
  - destruct V as [u l L|ut u ty l T L].
    + destruct L as [a t St| | | |a l N]; rewrite <- Cu in H; try discriminate.
      * destruct (K _ _ St H) as [b [Q B]]. exists b, t, []. rewrite uspan.
        rewrite <- Cu, Q. auto.
      * exfalso. apply number_start in N. destruct N as [c [z [Q D]]]. rewrite Q in H.
        injection H as ->. destruct D as [[D|D]|D]; try discriminate.
        apply dec_digit_spec in D. lia.
    + exfalso. rewrite chars_app in Cu. apply type_start in T. destruct T as [z T].
      rewrite T in Cu. rewrite <- Cu in H. discriminate.
  - rewrite chars_app in Cu. destruct e as [ec []]. cbn [fst] in Ee. subst ec.
    rewrite chars_c in Cu. cbn [fst] in Cu.
    destruct Kt as [a t St|a B _].
    + assert (hd_error a = Some 0x22%N) as Ha.
      { pose proof (string_start _ _ St) as Y. destruct a; [destruct Y; discriminate|].
        rewrite <- Cu in H. exact H. }
      destruct (K _ _ St Ha) as [b [Q Bd]]. exists b, t, (0x3D%N :: chars u).
      rewrite <- Cu, Q. split; [cbn; rewrite <- app_assoc; reflexivity|]. split; [exact Bd|].
      right. exists v, (chars u). rewrite uspan. auto.
    + exfalso. apply bare_start in B. destruct B as [c [z [Q C]]].
      rewrite Q in Cu. rewrite <- Cu in H. injection H as ->.
      destruct C as [[C|C]|[[C|C] _]]; try discriminate. destruct C as [_ [C _]].
      apply C. cbn. tauto.
Qed.

Theorem quoted_reads x D : reads (str "n " ++ 0x22%N :: x) D ->
  exists s t r, x = s ++ 0x22%N :: r /\ string_body s t
    /\ (hd_error r = Some 0x3D%N
        \/ exists args ps ch D', D = Spanned tt (Node None (Spanned tt (str "n"))
             (Value None (Spanned tt (LString t)) :: args) ps ch) :: D').
Proof.
  intros H. destruct (n_item_reads _ _ _ H quote_item)
    as [s [R [i [l [ps [ch [D' [X [P [F [M ->]]]]]]]]]]].
  assert (hd_error s = Some 0x22%N) as Hs.
  { apply item_start_at in P. destruct P as [c [u [Q _]]]. rewrite plain_chars in Q. subst s.
    injection X as <- _. reflexivity. }
  destruct (quote_plain_item s i P Hs) as [b [t [r [-> [B K]]]]].
  cbn in X. injection X as ->. rewrite <- app_assoc. cbn [app].
  exists b, t, (r ++ R). split; [reflexivity|]. split; [exact B|].
  destruct K as [[-> ->]|[v [r' [-> ->]]]].
  - right. cbn [arguments_of]. eauto 10.
  - left. reflexivity.
Qed.

Theorem string_reads s t : string_body s t ->
  reads (str "n " ++ 0x22%N :: s ++ [0x22%N]) (n_arg (LString t)).
Proof. intros B. apply n_arg_reads, Lit_string, ST_escaped. constructor. exact B. Qed.

(** ** Unicode escapes *)

Lemma unicode_reads h v : (1 <= List.length h <= 6)%nat -> digits_value 16 h v ->
  scalar_value v ->
  reads (str "n ""\u{" ++ h ++ str "}""") (n_arg (LString [v])).
Proof.
  intros L V S. pose proof (string_reads (0x5C%N :: (str "u{" ++ h ++ str "}") ++ []) [v]) as H.
  rewrite app_nil_r in H.
  replace (str "n ""\u{" ++ h ++ str "}""")
    with (str "n " ++ 0x22%N :: (0x5C%N :: str "u{" ++ h ++ str "}") ++ [0x22%N])
    by (cbn; rewrite <- app_assoc; reflexivity).
  apply H. rewrite <- (app_nil_r (str "u{" ++ h ++ str "}")).
  apply (SB_escape _ v [] []); [|constructor]. apply Esc_unicode; assumption.
Qed.

Lemma split_brace h : forall a x y, ~ In 0x7D%N h -> ~ In 0x7D%N a ->
  a ++ 0x7D%N :: x = h ++ 0x7D%N :: y -> a = h /\ x = y.
Proof.
  intros a x y H A Q.
  destruct (split_first (fun c => c <> 0x7D%N) a h x y 0x7D%N 0x7D%N) as [-> [_ ->]]; auto.
  - apply Forall_forall. intros c C ->. auto.
  - apply Forall_forall. intros c C ->. auto.
Qed.

Lemma unicode_only h D : ~ In 0x7D%N h -> reads (str "n ""\u{" ++ h ++ str "}""") D ->
  exists v, (1 <= List.length h <= 6)%nat /\ digits_value 16 h v /\ scalar_value v
    /\ D = n_arg (LString [v]).
Proof.
  intros H R. assert (R' := R). change (str "n ""\u{" ++ h ++ str "}""")
    with (str "n " ++ 0x22%N :: (str "\u{" ++ h ++ str "}""")) in R.
  apply quoted_reads in R. destruct R as [s [t [r [Q [B _]]]]].
  assert (exists v, (1 <= List.length h <= 6)%nat /\ digits_value 16 h v /\ scalar_value v)
    as [v [L [V S]]].
  { inversion B as [|c s' t' C1 C2 B'|e v s' t' Es B']; subst.
    - cbn in Q. discriminate.
    - cbn in Q. injection Q as <- _. congruence.
    - cbn in Q. injection Q as Q. destruct Es as [c v I|ds v L V S].
      + cbn in Q. injection Q as <- _. destruct (not_u_escape _ I).
      + cbn in Q. injection Q as Q. rewrite <- !app_assoc in Q. cbn [app str] in Q.
        symmetry in Q. apply split_brace in Q; [|exact H|].
        * destruct Q as [<- _]. eauto.
        * intros X. apply digits_value_chars in V. rewrite Forall_forall in V.
          apply V, hex_not in X. tauto. }
  exists v. split; [exact L|]. split; [exact V|]. split; [exact S|].
  pose proof (unicode_reads h v L V S) as [d [P <-]]. destruct R' as [d' [P' <-]]. pose proof (eq_trans (eq_sym P') P) as Z.
  injection Z as ->. reflexivity.
Qed.

(** ** Arguments and properties *)

Lemma item_props_app a b : item_props (a ++ b) = item_props a ++ item_props b.
Proof. apply flat_map_app. Qed.

Lemma item_props_in k v l : In (k, v) (item_props l) <->
  exists g ks dv, In (g, DProp ks (s_value k) dv) l /\ v = plain_value dv.
Proof.
  destruct k as [[] k]. cbn [s_value]. unfold item_props. rewrite in_flat_map. split.
  - intros [[g i] [I X]]. cbn [snd] in X. destruct i as [dv|ks k' dv|g' i]; try contradiction.
    destruct X as [X|[]]. injection X as -> <-. eauto.
  - intros [g [ks [dv [I ->]]]]. exists (g, DProp ks k dv). split; [exact I|]. left. reflexivity.
Qed.

Lemma item_props_split l : forall b k v a, item_props l = b ++ (k, v) :: a ->
  exists l1 g ks dv l2, l = l1 ++ (g, DProp ks (s_value k) dv) :: l2 /\ v = plain_value dv
    /\ item_props l1 = b /\ item_props l2 = a.
Proof.
  induction l as [|[g i] l IH]; intros b k v a Q; [destruct b; discriminate|].
  unfold item_props in Q. cbn [flat_map snd] in Q. fold (item_props l) in Q.
  destruct i as [dv|ks k' dv|g' i]; cbn [app] in Q.
  - destruct (IH _ _ _ _ Q) as [l1 [h [ks [dv' [l2 [-> [-> [<- <-]]]]]]]].
    exists ((g, DArg dv) :: l1), h, ks, dv', l2. auto.
  - destruct b as [|x b]; cbn [app] in Q.
    + injection Q as <- <- <-. exists [], g, ks, dv, l. auto.
    + injection Q as <- Q. destruct (IH _ _ _ _ Q) as [l1 [h [ks' [dv' [l2 [-> [-> [<- <-]]]]]]]].
      exists ((g, DProp ks k' dv) :: l1), h, ks', dv', l2. auto.
  - destruct (IH _ _ _ _ Q) as [l1 [h [ks [dv' [l2 [-> [-> [<- <-]]]]]]]].
    exists ((g, DSkip g' i) :: l1), h, ks, dv', l2. auto.
Qed.

Lemma last_property_effective l k v : effective (item_props l) (Spanned tt k, v) <->
  last_property l k v.
Proof.
  rewrite effective_spec. cbn [fst snd]. change (key_of (Spanned tt k, v)) with k. split.
  - intros [_ L]. apply last_val_spec in L. destruct L as [b [k2 [a [Q [K N]]]]].
    destruct k2 as [[] k2]. cbn [s_value] in K. subst k2.
    destruct (item_props_split l b _ v a Q) as [l1 [g [ks [dv [l2 [-> [-> [<- <-]]]]]]]].
    exists l1, g, ks, dv, l2. split; [reflexivity|]. split; [reflexivity|].
    intros g' ks' v' I. apply (N (Spanned tt k, plain_value v')); [|reflexivity].
    apply item_props_in. exists g', ks', v'. auto.
  - intros [l1 [g [ks [dv [l2 [-> [-> N]]]]]]].
    assert (last_val (item_props (l1 ++ (g, DProp ks k dv) :: l2)) k = Some (plain_value dv)) as L.
    { apply last_val_spec. exists (item_props l1), (Spanned tt k), (item_props l2).
      split; [apply item_props_app|]. split; [reflexivity|].
      intros [k' v'] I X. apply item_props_in in I. destruct I as [g' [ks' [dv' [I ->]]]].
      unfold key_of in X. cbn [fst] in X. rewrite X in I. apply (N _ _ _ I). }
    split; [|exact L].
    destruct (first_key (item_props (l1 ++ (g, DProp ks k dv) :: l2)) k) as [k0|] eqn:F.
    + f_equal. apply first_key_spec in F. destruct F as [b [v0 [a [_ [_ K]]]]].
      destruct k0 as [[] k0]. cbn [s_value] in K. subst. reflexivity.
    + apply first_last_none in F. congruence.
Qed.

Theorem items_read items : wf_items items ->
  exists ps, reads (str "n" ++ render_items items)
      [Spanned tt (Node None (Spanned tt (str "n")) (item_args items) ps None)]
    /\ increasing ps
    /\ forall k v, In (k, v) ps <-> last_property items (s_value k) v.
Proof.
  intros W. destruct (property_map_ex (item_props items)) as [ps P].
  exists ps. split; [apply n_items_reads; assumption|]. destruct P as [I P].
  split; [exact I|]. intros [[] k] v. cbn [s_value]. rewrite P. apply last_property_effective.
Qed.

(** ** Newlines *)

Lemma newline_reads nl (t : dterm) :
  newline_text nl -> t = TNewline nl \/ (exists b, no_newline b /\ t = TComment b nl) ->
  reads (str "a" ++ render_term t ++ str "b")
    [named (str "a"); named (str "b")].
Proof.
  intros Nl T.
  assert (forall c, (0x61 <= c /\ c <= 0x62)%N -> wf_name [c] [c]) as Nm.
  { intros c C. apply WN_bare; [|intros X; injection X as ->; lia].
    assert (c = 0x61 \/ c = 0x62)%N as Q by lia.
    apply Bare_plain; [|intros [X|X]; lia|constructor|].
    - apply id_sans_dig_spec. destruct Q; subst; reflexivity.
    - cbn. intros [X|[X|[X|[]]]]; discriminate. }
  pose proof (render_parse_span
    ([], DCons None (DNode None (str "a") (str "a") [] DNone [] t) []
       (DCons None (DNode None (str "b") (str "b") [] DNone [] TEof) [] DNil))
    [Spanned tt (Node None (Spanned tt (str "a")) [] [] None);
     Spanned tt (Node None (Spanned tt (str "b")) [] [] None)]) as H.
  apply H; clear H.
  - split; [constructor|]. constructor; [discriminate| |constructor|].
    + apply WF_node; [exact I|apply Nm; cbv; split; discriminate|constructor|constructor
        |split; [constructor|discriminate]| |].
      * destruct T as [->|[b [B ->]]]; [exact Nl|split; assumption].
      * destruct T as [->|[b [B ->]]]; discriminate.
    + constructor; [discriminate| |constructor|constructor].
      apply WF_node; [exact I|apply Nm; cbv; split; discriminate|constructor|constructor
        |split; [constructor|discriminate]|exact I|reflexivity].
  - apply LCn_cons; [|apply LCn_cons; [|constructor]].
    + apply (NC None _ _ []); [apply property_map_nil|constructor].
    + apply (NC None _ _ []); [apply property_map_nil|constructor].
Qed.
