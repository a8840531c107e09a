(** Strings, numbers, identifiers, literals and type names: the parsers accept
    what the grammar says. *)

From Coq Require Import NArith ZArith PeanoNat List Bool String Lia ZifyBool.
From Verif Require Import Chars Ast Errors Chumsky Spans Grammar Safe GrammarSafe
  Near GrammarNear Kdl KdlChars Good LexSpace.
Import ListNotations.
Local Open Scope list_scope.

Ltac wsx := unfold ws_chars, newline_chars in *; cbn [In] in *; lia.

Ltac aa := rewrite <- ?app_assoc; cbn [app]; rewrite <- ?app_assoc; cbn [app];
  rewrite <- ?app_assoc; cbn [app]; rewrite <- ?app_assoc; reflexivity.

Section Lit.
Context {Sp : Type} {E : env Sp}.

Notation parser := (parser Sp).
Notation toks := (toks Sp).
Notation len := (@List.length (tok Sp)).

Lemma chars_c x (s : toks) : chars (x :: s) = fst x :: chars s.
Proof. reflexivity. Qed.

Lemma chars_0 : chars (@nil (tok Sp)) = [].
Proof. reflexivity. Qed.

Ltac ch := rewrite ?chars_c, ?chars_app, ?chars_c, ?chars_app, ?chars_c, ?chars_app,
  ?chars_c, ?chars_0; cbn [fst].

Lemma failed_or_good {A} (p : parser A) ts : quiet p -> (forall n, safe n p) ->
  failed (p ts) \/ exists a rest, good (p ts) a rest.
Proof.
  intros Q S. destruct (out_dec (p ts)) as [F|[a [rest [alt O]]]]; [auto|].
  right. exists a, rest. split; [|apply (S _ ts (le_n _))]. split; [apply Q|eauto].
Qed.

(** ** Parsers of one character *)

Definition stop (P : char -> Prop) (t : text) : Prop :=
  match t with [] => True | c :: _ => ~ P c end.

Definition one (p : parser char) (P : char -> Prop) : Prop :=
  (forall ts a rest, good (p ts) a rest -> exists sp, ts = (a, sp) :: rest /\ P a)
  /\ (forall c sp rest, P c -> succ (p ((c, sp) :: rest)) c rest)
  /\ (forall ts, failed (p ts) <-> stop P (chars ts)).

Lemma one_filter f P : (forall c, f c = true <-> P c) -> one (p_filter f) P.
Proof.
  intros H. split; [|split].
  - intros ts a rest G. apply good_filter in G. destruct G as [sp [-> F]].
    exists sp. split; [reflexivity|]. apply H. exact F.
  - intros c sp rest X. apply succ_filter, H, X.
  - intros ts. rewrite failed_filter_iff. unfold stop. destruct (chars ts); [tauto|].
    rewrite <- H. destruct (f c); intuition congruence.
Qed.

Lemma failed_map_err_iff {A} f (p : parser A) ts :
  failed (p_map_err f p ts) <-> failed (p ts).
Proof.
  split; [|apply failed_map_err]. intros [e F]. unfold p_map_err in F.
  cbn [r_out] in F. destruct (r_out (p ts)) eqn:O; [discriminate|]. eexists; eauto.
Qed.

Lemma one_map_err g p P : one p P -> one (p_map_err g p) P.
Proof.
  intros [H1 [H2 H3]]. split; [|split].
  - intros ts a rest G. apply good_map_err in G. auto.
  - intros c sp rest X. apply succ_map_err; auto.
  - intros ts. rewrite failed_map_err_iff. apply H3.
Qed.

Lemma one_just x : one (p_just x) (fun c => c = x).
Proof.
  split; [|split].
  - intros ts a rest G. apply good_just in G. exact G.
  - intros c sp rest ->. apply succ_just.
  - intros ts. rewrite failed_just_iff. unfold stop. destruct (chars ts); simpl.
    + split; [auto|discriminate].
    + split; intros H X; apply H; congruence.
Qed.

Lemma one_or p q P Q : quiet p -> (forall c, P c \/ ~ P c) -> one p P -> one q Q ->
  one (p_or p q) (fun c => P c \/ Q c).
Proof.
  intros Hq Hd [P1 [P2 P3]] [Q1 [Q2 Q3]].
  assert (forall c sp rest, P c \/ Q c -> succ (p_or p q ((c, sp) :: rest)) c rest) as K.
  { intros c sp rest X. destruct (Hd c) as [Y|Y].
    - apply succ_or_l. auto.
    - apply succ_or_r; [apply P3; exact Y|]. apply Q2. tauto. }
  split; [|split; [exact K|]].
  - intros ts a rest G. apply good_or_q in G; [|auto]. destruct G as [G|[G _]].
    + apply P1 in G. destruct G as [sp [-> X]]. eauto.
    + apply Q1 in G. destruct G as [sp [-> X]]. eauto.
  - intros ts. split.
    + intros F. destruct ts as [|[c sp] ts]; [exact I|]. intros X.
      eapply succ_failed; [apply K; exact X|exact F].
    + intros X. apply failed_or; [apply P3|apply Q3]; destruct (chars ts); simpl in *; tauto.
Qed.

Lemma chain_one p P : one p P -> forall ts l rest, chain p ts l rest ->
  exists s, ts = s ++ rest /\ chars s = l /\ Forall P l.
Proof.
  intros [H _] ts l rest Ch. induction Ch as [ts|ts a r1 l rest G Ch [s2 [-> [<- F]]]].
  - exists []. split; [reflexivity|split; [reflexivity|constructor]].
  - apply H in G. destruct G as [sp [-> X]]. exists ((a, sp) :: s2).
    split; [reflexivity|]. split; [reflexivity|constructor; auto].
Qed.

Lemma schain_one p P : one p P -> forall s rest, Forall P (chars s) ->
  schain p (s ++ rest) (chars s) rest.
Proof.
  intros [_ [H _]] s rest F. induction s as [|[c sp] s IH]; [constructor|].
  unfold chars in *; cbn [map fst app] in *. inversion F; subst.
  econstructor; [apply H; auto| |apply IH; auto]. cbn [List.length]. lia.
Qed.

Lemma repeated_one_sound p P ts l rest : one p P -> good (p_repeated p ts) l rest ->
  exists s, ts = s ++ rest /\ chars s = l /\ Forall P l /\ stop P (chars rest).
Proof.
  intros H G. apply good_repeated in G. destruct G as [Ch F].
  apply (chain_one p P H) in Ch. destruct Ch as [s [-> [X Y]]].
  exists s. repeat split; auto. apply H. exact F.
Qed.

Lemma repeated_one_complete p P s rest : one p P -> Forall P (chars s) ->
  stop P (chars rest) -> succ (p_repeated p (s ++ rest)) (chars s) rest.
Proof.
  intros H F X. apply succ_repeated; [apply (schain_one p P H); auto|].
  apply H. exact X.
Qed.

(** ** Raw strings *)

Lemma repeat_forall (x : char) l : Forall (fun c => c = x) l -> l = repeat x (List.length l).
Proof. induction 1; simpl; congruence. Qed.

Lemma forall_repeat (x : char) n : Forall (fun c => c = x) (repeat x n).
Proof. induction n; simpl; constructor; auto. Qed.

Definition raw_end (n : nat) : parser unit :=
  p_ignore_then (p_just 0x22%N) (p_ignored (p_exactly n (p_just 0x23%N))).

Lemma raw_end_sound n ts u rest : good (raw_end n ts) u rest ->
  exists s, ts = s ++ rest /\ chars s = raw_close n.
Proof.
  unfold raw_end. intros G. gi.
  match goal with H : good (p_exactly _ _ _) _ _ |- _ =>
    apply good_exactly in H; destruct H as [Ch L] end.
  apply (chain_one _ _ (one_just 0x23%N)) in Ch. destruct Ch as [s [-> [<- F]]].
  match goal with |- exists s, ?a :: _ = _ /\ _ => exists (a :: s) end.
  split; [reflexivity|]. unfold raw_close, chars; cbn [map fst]. f_equal.
  fold (chars s). rewrite <- L. apply repeat_forall, F.
Qed.

Lemma raw_end_complete n s rest : chars s = raw_close n ->
  succ (raw_end n (s ++ rest)) tt rest.
Proof.
  unfold raw_close. intros H. apply chars_cons in H. destruct H as [sp [u [-> H]]].
  unfold raw_end. cbn [app]. eapply succ_ignore_then; [apply succ_just|].
  eapply succ_ignored. apply succ_exactly with (l := chars u).
  - apply (schain_one _ _ (one_just 0x23%N)). rewrite H. apply forall_repeat.
  - rewrite H. apply repeat_length.
Qed.

Lemma quiet_raw_end n : @quiet Sp _ (raw_end n).
Proof. unfold raw_end. quiets. Qed.

Lemma S_raw_end n : forall k, @safe Sp _ k (raw_end n).
Proof.
  unfold raw_end. apply S_ignore_then; [intros k; apply safe_just|].
  apply S_ignored, S_exactly; [intros k; apply safe_just|apply eats_just].
Qed.

Lemma raw_end_failed n ts : failed (raw_end n ts) <-> ~ prefix (raw_close n) (chars ts).
Proof.
  split.
  - intros F [c X]. apply chars_split in X. destruct X as [u [v [-> [X _]]]].
    eapply succ_failed; [apply raw_end_complete; exact X|exact F].
  - intros N. destruct (failed_or_good (raw_end n) ts (quiet_raw_end n) (S_raw_end n))
      as [F|[a [rest G]]]; [auto|].
    apply raw_end_sound in G. destruct G as [s [-> X]]. exfalso. apply N.
    exists (chars rest). rewrite chars_app, X. reflexivity.
Qed.

Lemma prefix_app_short (a b c : text) : List.length a <= List.length b ->
  prefix a (b ++ c) <-> prefix a b.
Proof.
  intros L. split; intros [d X].
  - exists (skipn (List.length a) b).
    assert (firstn (List.length a) b = a) as Y.
    { apply (f_equal (firstn (List.length a))) in X.
      rewrite !firstn_app in X. replace (List.length a - List.length b) with 0 in X by lia.
      rewrite Nat.sub_diag, firstn_all in X. simpl in X. rewrite !app_nil_r in X. exact X. }
    rewrite <- Y at 1. symmetry. apply firstn_skipn.
  - exists (d ++ c). rewrite X, app_assoc. reflexivity.
Qed.

Lemma raw_close_len n : List.length (raw_close n) = S n.
Proof. unfold raw_close. simpl. rewrite repeat_length. reflexivity. Qed.

Lemma raw_string_eq : @raw_string Sp E = p_map (fun r => fst (snd r))
    (p_bind
      (p_then_ignore
        (p_ignore_then (p_just 0x72%N)
          (p_map (@List.length char) (p_repeated (p_just 0x23%N))))
        (p_just 0x22%N))
      (fun sharp_num =>
        p_map_err_with_span (raw_string_err sharp_num)
          (p_take_until (raw_end sharp_num)))).
Proof. reflexivity. Qed.

Lemma raw_string_sound ts t rest : good (raw_string ts) t rest ->
  exists s, ts = s ++ rest /\ raw_text (chars s) t.
Proof.
  rewrite raw_string_eq. intros G. gi. apply good_bind in G.
  destruct G as [n [b [r1 [G1 [G2 ->]]]]]. gi.
  match goal with H : good (p_repeated _ _) _ _ |- _ => rename H into G3 end.
  apply (repeated_one_sound _ _ _ _ _ (one_just 0x23%N)) in G3.
  destruct G3 as [u [-> [<- [F _]]]].
  destruct b as [cs a]. apply good_take_until in G2.
  destruct G2 as [v [mid [-> [-> [G2 Fl]]]]].
  apply raw_end_sound in G2. destruct G2 as [w [-> W]].
  match goal with |- exists s, ?a :: u ++ ?b :: _ = _ /\ _ =>
    exists (a :: u ++ b :: v ++ w) end.
  split; [apps; cbn [app]; rewrite <- !app_assoc; cbn [app]; rewrite <- app_assoc; reflexivity|].
  cbn [fst snd]. ch. rewrite W.
  rewrite (repeat_forall _ _ F). rewrite chars_len, repeat_length in *.
  apply (Raw (len u) (chars v)).
  intros t1 t2 X Y. apply chars_split in X. destruct X as [v1 [v2 [-> [X1 X2]]]]. subst t1 t2.
  specialize (Fl v1 v2 eq_refl). apply raw_end_failed in Fl.
  - intros Z. apply Fl. rewrite !chars_app, W, app_assoc. apply prefix_app_short; [|exact Z].
    rewrite app_length. lia.
  - intros ->. apply Y. reflexivity.
Qed.

Lemma raw_string_complete s t rest : raw_text (chars s) t ->
  succ (raw_string (s ++ rest)) t rest.
Proof.
  rewrite raw_string_eq. intros H. remember (chars s) as cs. destruct H as [n t H].
  symmetry in Heqcs. apply chars_cons in Heqcs. destruct Heqcs as [sp [u [-> X]]].
  apply chars_split in X. destruct X as [u1 [u2 [-> [X1 X2]]]].
  apply chars_cons in X2. destruct X2 as [sq [u3 [-> X2]]].
  apply chars_split in X2. destruct X2 as [v [w [-> [X2 X3]]]].
  assert (succ (p_then_ignore
        (p_ignore_then (p_just 0x72%N)
          (p_map (@List.length char) (p_repeated (p_just 0x23%N))))
        (p_just 0x22%N) (((0x72%N, sp) :: u1 ++ (0x22%N, sq) :: v ++ w) ++ rest))
     n ((v ++ w) ++ rest)) as A.
  { cbn [app]. rewrite <- app_assoc. cbn [app].
    eapply succ_then_ignore; [|apply succ_just].
    eapply succ_ignore_then; [apply succ_just|].
    replace n with (List.length (chars u1)) by (rewrite X1; apply repeat_length).
    apply succ_map. apply (repeated_one_complete _ _ _ _ (one_just 0x23%N)).
    - rewrite X1. apply forall_repeat.
    - unfold stop, chars; cbn [map fst]. discriminate. }
  rewrite <- X2.
  apply (succ_map (fun r : nat * (text * unit) => fst (snd r)) _ _ (n, (chars v, tt)) rest).
  eapply succ_bind; [exact A|].
  apply succ_map_err_with_span. rewrite <- app_assoc. apply succ_take_until.
  - intros v1 v2 X Y. apply raw_end_failed. rewrite !chars_app, X3, app_assoc.
    rewrite prefix_app_short by (rewrite app_length; lia).
    apply (H (chars v1) (chars v2)).
    + rewrite <- X2, X, chars_app. reflexivity.
    + intros Z. apply chars_nil in Z. auto.
  - apply raw_end_complete. exact X3.
Qed.

(** ** Escapes and escaped strings *)

Lemma digits_value_hex l v : digits_value 16 l v <->
  Forall (digit_char 16) l /\ hex_value l = v.
Proof.
  revert v. induction l as [|c l IH] using rev_ind; intros v.
  - split.
    + intros H. inversion H; subst; [split; [constructor|reflexivity]|].
      destruct t; discriminate.
    + intros [_ <-]. constructor.
  - unfold hex_value. rewrite fold_left_app. cbn [fold_left].
    fold (hex_value l). rewrite Forall_app. split.
    + intros H. inversion H.
      * destruct l; discriminate.
      * apply app_inj_tail in H0. destruct H0; subst.
        apply IH in H1. destruct H1 as [F <-].
        pose proof (proj2 (to_digit_spec 16 c d ltac:(lia)) H2) as T. rewrite T.
        split; [|reflexivity]. split; [exact F|]. repeat constructor. exists d. exact H2.
    + intros [[F D] <-]. inversion D; subst. destruct H1 as [d D1].
      pose proof (proj2 (to_digit_spec 16 c d ltac:(lia)) D1) as T. rewrite T.
      constructor; [|exact D1]. apply IH. auto.
Qed.

Definition hex_digit : parser char := p_filter_map esc_hex.

Lemma one_hex : one hex_digit (digit_char 16).
Proof.
  split; [|split].
  - intros ts a rest G. apply good_filter_map in G. destruct G as [c [sp [-> X]]].
    unfold esc_hex in X. destruct (is_digit 16 c) eqn:D; inversion X; subst.
    exists sp. split; [reflexivity|]. apply is_digit_spec; [lia|auto].
  - intros c sp rest X. apply succ_filter_map. unfold esc_hex.
    apply is_digit_spec in X; [|lia]. rewrite X. reflexivity.
  - intros [|[c sp] ts]; unfold chars; cbn [map fst stop].
    + split; [auto|]. intros _. eexists; reflexivity.
    + unfold hex_digit, failed, p_filter_map, esc_hex.
      rewrite <- (is_digit_spec 16 c) by lia. destruct (is_digit 16 c).
      * split; [intros [e X]; discriminate|congruence].
      * split; [discriminate|]. intros _. eexists; reflexivity.
Qed.

Lemma esc_simple_spec (sp : Sp) c v : esc_simple sp c = inl v <-> In (c, v) simple_escapes.
Proof.
  unfold esc_simple, simple_escapes. cbn [In].
  split.
  - intros H.
    repeat match type of H with context [if ?b then _ else _] => destruct b eqn:? end;
      inversion H; subst;
      repeat match goal with X : (_ || _)%bool = true |- _ => apply orb_prop in X; destruct X end;
      repeat match goal with X : (_ =? _)%N = true |- _ => apply N.eqb_eq in X; subst end;
      tauto.
  - intros H.
    repeat (destruct H as [H|H]; [inversion H; subst; reflexivity|]). destruct H.
Qed.

Definition esc_unicode : parser char :=
  p_ignore_then (p_just 0x75%N)
      (p_recover_skip_until esc_stop 0%N
        (p_try_map esc_code
          (p_delimited (p_repeat 1 (Some 6%nat) hex_digit)
                       (p_just 0x7B%N) (p_just 0x7D%N)))).

Lemma esc_char_eq : @esc_char Sp E = p_or (p_filter_map esc_simple) esc_unicode.
Proof. reflexivity. Qed.

Lemma esc_char_sound ts v rest : good (esc_char ts) v rest ->
  exists s, ts = s ++ rest /\ escape (chars s) v.
Proof.
  rewrite esc_char_eq. intros G. apply good_or_q in G; [|apply quiet_filter_map].
  destruct G as [G|[G _]].
  - apply good_filter_map in G. destruct G as [c [sp [-> X]]]. exists [(c, sp)].
    split; [reflexivity|]. constructor. apply esc_simple_spec in X. exact X.
  - unfold esc_unicode in G. gi.
    match goal with H : good (p_recover_skip_until _ _ _ _) _ _ |- _ =>
      apply good_recover in H; apply good_try_map in H; destruct H as [ds [G X]] end.
    gi. match goal with H : good (p_repeat _ _ _ _) _ _ |- _ =>
      apply good_repeat_1_6 in H; destruct H as [Ch [L _]] end.
    apply (chain_one _ _ one_hex) in Ch. destruct Ch as [s [-> [<- F]]].
    match goal with |- exists s, ?a :: ?b :: _ ++ ?c :: _ = _ /\ _ =>
      exists (a :: b :: s ++ [c]) end.
    split; [cbn [app]; rewrite <- app_assoc; reflexivity|].
    unfold esc_code in X.
    destruct (is_scalar (hex_value (chars s))) eqn:Sc; inversion X; subst.
    ch.
    apply (Esc_unicode (chars s)); [exact L| |apply is_scalar_spec; exact Sc].
    apply digits_value_hex. auto.
Qed.

Lemma esc_char_complete s v rest : escape (chars s) v ->
  succ (esc_char (s ++ rest)) v rest.
Proof.
  rewrite esc_char_eq. intros H. remember (chars s) as cs. destruct H as [c v H|ds v L D Sc].
  - symmetry in Heqcs. apply chars_singleton in Heqcs. destruct Heqcs as [sp ->].
    apply succ_or_l. cbn [app]. apply succ_filter_map. apply esc_simple_spec. exact H.
  - symmetry in Heqcs. cbn [str app] in Heqcs.
    apply chars_cons in Heqcs. destruct Heqcs as [sp [u [-> X]]].
    apply chars_cons in X. destruct X as [sq [u1 [-> X]]].
    apply chars_split in X. destruct X as [u2 [u3 [-> [X1 X2]]]].
    apply chars_singleton in X2. destruct X2 as [sr ->].
    apply digits_value_hex in D. destruct D as [F V].
    apply succ_or_r.
    + eexists. reflexivity.
    + unfold esc_unicode. cbn [app]. eapply succ_ignore_then; [apply succ_just|].
      apply succ_recover. eapply succ_try_map.
      * rewrite <- app_assoc. cbn [app].
        eapply succ_delimited; [apply succ_just| |apply succ_just].
        apply succ_repeat_1_6 with (l := chars u2).
        -- apply (schain_one _ _ one_hex). rewrite X1. exact F.
        -- rewrite X1. exact L.
        -- left. apply one_hex. unfold chars, stop; cbn [map fst].
           rewrite <- is_digit_spec by lia. discriminate.
      * unfold esc_code. rewrite X1, V.
        apply is_scalar_spec in Sc. rewrite Sc. reflexivity.
Qed.

Definition str_char : parser char :=
  p_or (p_filter (fun c => negb (c =? 0x22) && negb (c =? 0x5C))%N)
       (p_ignore_then (p_just 0x5C%N) esc_char).

Lemma escaped_string_eq : @escaped_string Sp E =
  p_ignore_then (p_just 0x22%N)
    (p_map_err_with_span string_err (p_then_ignore (p_repeated str_char) (p_just 0x22%N))).
Proof. reflexivity. Qed.

Lemma chain_str ts l rest : chain str_char ts l rest ->
  exists s, ts = s ++ rest /\ string_body (chars s) l.
Proof.
  induction 1 as [ts|ts a r1 l rest G Ch [s2 [-> B]]].
  - exists []. split; [reflexivity|constructor].
  - unfold str_char in G. apply good_or_q in G; [|apply quiet_filter].
    destruct G as [G|[G _]]; gi.
    + match goal with |- exists s, ?a :: _ = _ /\ _ => exists (a :: s2) end.
      split; [reflexivity|]. constructor; auto; lia.
    + match goal with H : good (esc_char _) _ _ |- _ =>
        apply esc_char_sound in H; destruct H as [s [-> X]] end.
      match goal with |- exists s, ?a :: _ = _ /\ _ => exists (a :: s ++ s2) end.
      split; [cbn [app]; rewrite <- app_assoc; reflexivity|].
      ch. constructor; auto.
Qed.

Lemma escape_ne s v : escape s v -> s <> [].
Proof. destruct 1; discriminate. Qed.

Lemma schain_str cs l : string_body cs l -> forall s rest, chars s = cs ->
  schain str_char (s ++ rest) l rest.
Proof.
  induction 1 as [|c cs t Hq Hb B IH|e v cs t He B IH]; intros s rest X.
  - apply chars_nil in X. subst. constructor.
  - apply chars_cons in X. destruct X as [sp [u [-> X]]]. cbn [app].
    econstructor; [|cbn [List.length]; apply Nat.lt_succ_diag_r|apply IH, X].
    apply succ_or_l. apply succ_filter. lia.
  - apply chars_cons in X. destruct X as [sp [u [-> X]]].
    apply chars_split in X. destruct X as [u1 [u2 [-> [X1 X2]]]]. cbn [app].
    rewrite <- app_assoc.
    econstructor; [| |apply IH, X2].
    + apply succ_or_r; [apply failed_filter; reflexivity|].
      eapply succ_ignore_then; [apply succ_just|]. apply esc_char_complete.
      rewrite X1. exact He.
    + cbn [List.length]. rewrite !app_length. lia.
Qed.

Lemma escaped_string_sound ts t rest : good (escaped_string ts) t rest ->
  exists s, ts = s ++ rest /\ escaped_text (chars s) t.
Proof.
  rewrite escaped_string_eq. intros G. gi.
  match goal with H : good (p_repeated _ _) _ _ |- _ =>
    apply good_repeated in H; destruct H as [Ch _] end.
  apply chain_str in Ch. destruct Ch as [s [-> B]].
  match goal with |- exists s, ?a :: _ ++ ?b :: _ = _ /\ _ => exists (a :: s ++ [b]) end.
  split; [cbn [app]; rewrite <- app_assoc; reflexivity|].
  ch. constructor. exact B.
Qed.

Lemma escaped_string_complete s t rest : escaped_text (chars s) t ->
  succ (escaped_string (s ++ rest)) t rest.
Proof.
  rewrite escaped_string_eq. intros H. remember (chars s) as cs. destruct H as [b t B].
  symmetry in Heqcs. apply chars_cons in Heqcs. destruct Heqcs as [sp [u [-> X]]].
  apply chars_split in X. destruct X as [u1 [u2 [-> [X1 X2]]]].
  apply chars_singleton in X2. destruct X2 as [sq ->].
  cbn [app]. rewrite <- app_assoc. cbn [app].
  eapply succ_ignore_then; [apply succ_just|]. apply succ_map_err_with_span.
  eapply succ_then_ignore; [|apply succ_just].
  apply succ_repeated; [apply (schain_str _ _ B); exact X1|].
  apply failed_or; [apply failed_filter; reflexivity|].
  apply failed_ignore_then1, failed_just. discriminate.
Qed.

Lemma raw_start s t : raw_text s t -> hd_error s = Some 0x72%N.
Proof. destruct 1; reflexivity. Qed.

Lemma escaped_start s t : escaped_text s t -> hd_error s = Some 0x22%N.
Proof. destruct 1; reflexivity. Qed.

Lemma string_start s t : string_text s t ->
  hd_error s = Some 0x72%N \/ hd_error s = Some 0x22%N.
Proof. destruct 1; [left; eapply raw_start|right; eapply escaped_start]; eauto. Qed.

Lemma string_sound ts t rest : good (string_ ts) t rest ->
  exists s, ts = s ++ rest /\ string_text (chars s) t.
Proof.
  unfold string_. intros G. apply good_or_q in G; [|apply quiet_raw_string].
  destruct G as [G|[G _]].
  - apply raw_string_sound in G. destruct G as [s [-> X]]. eexists; split; eauto. constructor; auto.
  - apply escaped_string_sound in G. destruct G as [s [-> X]]. eexists; split; eauto.
    constructor 2; auto.
Qed.

Lemma hd_app (s t : text) x : hd_error s = Some x -> hd_error (s ++ t) = Some x.
Proof. destruct s; [discriminate|auto]. Qed.

Lemma rej_failed_hd {A} f (p : parser A) ts x : rej f p ->
  hd_error (chars ts) = Some x -> f x = false -> failed (p ts).
Proof.
  intros R H F. apply (rej_failed f); auto. rewrite hd_chars. destruct (chars ts); inversion H.
  subst. exact F.
Qed.

Lemma string_complete s t rest : string_text (chars s) t ->
  succ (string_ (s ++ rest)) t rest.
Proof.
  unfold string_. intros H. inversion H; subst.
  - apply succ_or_l, raw_string_complete. auto.
  - apply succ_or_r; [|apply escaped_string_complete; auto].
    eapply rej_failed_hd; [apply rej_raw_string| |].
    + rewrite chars_app. eapply hd_app, escaped_start; eauto.
    + reflexivity.
Qed.

(** ** Numbers *)

Lemma stripped_spec s t : stripped s t <-> t = no_underscore s.
Proof.
  split.
  - induction 1 as [|s t H ->|c s t N H ->]; [reflexivity|reflexivity|].
    unfold no_underscore. cbn [filter]. destruct (N.eqb_spec c 0x5F); [contradiction|reflexivity].
  - intros ->. induction s as [|c s IH]; [constructor|].
    unfold no_underscore. cbn [filter]. destruct (N.eqb_spec c 0x5F).
    + subst. constructor. exact IH.
    + constructor; auto.
Qed.

Lemma no_underscore_app a b : no_underscore (a ++ b) = no_underscore a ++ no_underscore b.
Proof. apply filter_app. Qed.

Lemma one_digit r : (r <= 16)%N -> one (digit r) (digit_char r).
Proof. intros H. apply one_filter. intros c. apply is_digit_spec, H. Qed.

Lemma one_digit_ r : (r <= 16)%N ->
  one (p_filter (fun c => (c =? 0x5F)%N || is_digit r c)) (digit_or_underscore r).
Proof.
  intros H. apply one_filter. intros c. unfold digit_or_underscore.
  rewrite <- is_digit_spec by exact H. rewrite orb_true_iff, N.eqb_eq. reflexivity.
Qed.

Lemma digits_sound r ts l rest : (r <= 16)%N -> good (digits r ts) l rest ->
  exists s, ts = s ++ rest /\ chars s = l /\ Forall (digit_or_underscore r) l.
Proof.
  intros H G. apply (repeated_one_sound _ _ _ _ _ (one_digit_ r H)) in G.
  destruct G as [s [-> [X [Y _]]]]. eauto.
Qed.

Lemma digits_complete r s rest : (r <= 16)%N -> Forall (digit_or_underscore r) (chars s) ->
  stop (digit_or_underscore r) (chars rest) ->
  succ (digits r (s ++ rest)) (chars s) rest.
Proof. intros H F X. apply (repeated_one_complete _ _ _ _ (one_digit_ r H)); auto. Qed.

Lemma one_sign : one (p_or (p_just 0x2D%N) (p_just 0x2B%N)) sign_char.
Proof.
  destruct (one_or _ _ _ _ (quiet_just 0x2D%N)
    (fun c => match N.eq_dec c 0x2D with left e => or_introl e | right n => or_intror n end)
    (one_just 0x2D%N) (one_just 0x2B%N)) as [A [B C]].
  unfold sign_char. split; [|split].
  - intros ts a rest G. apply A in G. destruct G as [sp [-> X]]. exists sp. tauto.
  - intros c sp rest X. apply B. tauto.
  - intros ts. rewrite C. destruct (chars ts); simpl; tauto.
Qed.

Lemma opt_sign_sound ts o rest : good (opt_sign ts) o rest ->
  exists s, ts = s ++ rest /\ opt_sign_text (chars s) /\ chars s = opt_list o.
Proof.
  unfold opt_sign. intros G. apply good_or_not in G. destruct G as [[a [-> G]]|[-> [-> _]]].
  - apply one_sign in G. destruct G as [sp [-> X]]. exists [(a, sp)].
    split; [reflexivity|]. split; [constructor; exact X|reflexivity].
  - exists []. split; [reflexivity|]. split; [constructor|reflexivity].
Qed.

Lemma opt_sign_complete s rest : opt_sign_text (chars s) ->
  (s = [] -> stop sign_char (chars rest)) ->
  exists o, succ (opt_sign (s ++ rest)) o rest /\ opt_list o = chars s.
Proof.
  intros H N. remember (chars s) as cs. destruct H as [|c X]; symmetry in Heqcs.
  - apply chars_nil in Heqcs. subst. exists None. split; [|reflexivity].
    apply succ_or_not_none. apply one_sign. auto.
  - apply chars_singleton in Heqcs. destruct Heqcs as [sp ->]. exists (Some c).
    split; [|reflexivity]. apply succ_or_not_some. apply one_sign. exact X.
Qed.

Definition int_parser (n : N) : parser text := p_map cons2 (p_then (digit n) (digits n)).

Lemma int_sound n ts t rest : (n <= 16)%N -> good (int_parser n ts) t rest ->
  exists s, ts = s ++ rest /\ chars s = t /\ integer_text n t.
Proof.
  intros L G. unfold int_parser in G. gi.
  match goal with H : good (digit _ _) _ _ |- _ => apply (one_digit n L) in H;
    destruct H as [sp [-> D]] end.
  match goal with H : good (digits _ _) _ _ |- _ => apply (digits_sound n) in H;
    [destruct H as [s [-> [<- F]]]|exact L] end.
  match goal with |- exists s, ?a :: _ = _ /\ _ => exists (a :: s) end.
  split; [reflexivity|]. split; [reflexivity|]. unfold cons2. constructor; auto.
Qed.

Lemma int_complete n s rest : (n <= 16)%N -> integer_text n (chars s) ->
  stop (digit_or_underscore n) (chars rest) ->
  succ (int_parser n (s ++ rest)) (chars s) rest.
Proof.
  intros L H X. remember (chars s) as cs. destruct H as [d ds D F].
  symmetry in Heqcs. apply chars_cons in Heqcs. destruct Heqcs as [sp [u [-> Y]]]. subst ds.
  change (d :: chars u) with (cons2 (d, chars u)). apply succ_map. cbn [app].
  eapply succ_then; [apply (one_digit n L); exact D|].
  apply digits_complete; auto.
Qed.

Lemma radix_digits_eq x n r : @radix_digits Sp E x n r =
  p_ignore_then (p_just x) (p_map (fun s => (r, s)) (int_parser n)).
Proof. reflexivity. Qed.

Lemma radix_digits_sound x n r ts y rest : (n <= 16)%N ->
  good (radix_digits x n r ts) y rest ->
  exists sp s, ts = (x, sp) :: s ++ rest /\ integer_text n (chars s) /\ y = (r, chars s).
Proof.
  rewrite radix_digits_eq. intros L G.
  apply good_ignore_then in G. destruct G as [a [r1 [G1 G2]]].
  apply good_just in G1. destruct G1 as [sp [-> ->]].
  apply good_map in G2. destruct G2 as [t [G2 ->]].
  apply int_sound in G2; [|exact L]. destruct G2 as [s [-> [<- H]]]. eauto.
Qed.

Lemma radix_sound ts l rest : good (radix_number ts) l rest ->
  exists s, ts = s ++ rest /\ number_text (chars s) l.
Proof.
  unfold radix_number. intros G. apply good_map in G. destruct G as [y [G ->]].
  apply good_then in G. destruct G as [o [z [r1 [G1 [G2 ->]]]]].
  apply good_then_ignore in G1. destruct G1 as [c [r2 [G1 G3]]].
  apply good_just in G3. destruct G3 as [sp [-> ->]].
  apply opt_sign_sound in G1. destruct G1 as [s [-> [O Ho]]].
  apply good_choice3 in G2.
  assert (exists x n r sq u, In (x, n, r) radix_prefixes /\ r1 = (x, sq) :: u ++ rest
    /\ integer_text n (chars u) /\ z = (r, chars u)) as [x [n [r [sq [u [I [-> [H ->]]]]]]]].
  { unfold radix_prefixes. cbn [In].
    destruct G2 as [K|[[_ K]|[_ [_ K]]]]; apply radix_digits_sound in K; try lia;
      destruct K as [sq [u [-> [H ->]]]]; do 5 eexists;
      (split; [|split; [reflexivity|split; [exact H|reflexivity]]]); tauto. }
  exists (s ++ (0x30%N, sp) :: (x, sq) :: u).
  split; [rewrite <- app_assoc; reflexivity|]. ch. cbn [snd]. rewrite <- Ho.
  apply Num_radix with (n := n); auto. apply stripped_spec. reflexivity.
Qed.

Lemma fraction_sound ts t rest : good (fraction ts) t rest ->
  exists s, ts = s ++ rest /\ chars s = t /\ fraction_text t.
Proof.
  unfold fraction. intros G. apply good_map in G. destruct G as [o [G ->]].
  apply good_or_not in G. destruct G as [[a [-> G]]|[-> [-> _]]].
  - apply good_map in G. destruct G as [x [G ->]].
    apply good_then in G. destruct G as [y [z [r1 [G [G2 ->]]]]].
    apply good_map in G. destruct G as [w [G ->]].
    apply good_then in G. destruct G as [c [d [r2 [G [G1 ->]]]]].
    apply good_just in G. destruct G as [sp [-> ->]].
    apply (one_digit 10) in G1; [|lia]. destruct G1 as [sq [-> D]].
    apply digits_sound in G2; [|lia]. destruct G2 as [s [-> [<- F]]].
    exists ((0x2E%N, sp) :: (d, sq) :: s). split; [reflexivity|]. split; [reflexivity|].
    cbn. constructor. constructor; auto.
  - exists []. split; [reflexivity|]. split; [reflexivity|]. constructor.
Qed.

Lemma exponent_sound ts t rest : good (exponent ts) t rest ->
  exists s, ts = s ++ rest /\ chars s = t /\ exponent_text t.
Proof.
  unfold exponent. intros G. apply good_map in G. destruct G as [o [G ->]].
  apply good_or_not in G. destruct G as [[a [-> G]]|[-> [-> _]]].
  - apply good_map in G. destruct G as [x [G ->]].
    apply good_then in G. destruct G as [y [z [r1 [G [G2 ->]]]]].
    apply good_map in G. destruct G as [w [G ->]].
    apply good_then in G. destruct G as [c [d [r2 [G [G1 ->]]]]].
    assert (exists sp, ts = (c, sp) :: r2 /\ (c = 0x65 \/ c = 0x45)%N) as [sp [-> C]].
    { apply good_or_q in G; [|apply quiet_just].
      destruct G as [G|[G _]]; apply good_just in G; destruct G as [sp [-> ->]]; eauto. }
    apply opt_sign_sound in G1. destruct G1 as [s1 [-> [O Ho]]].
    apply digits_sound in G2; [|lia]. destruct G2 as [s [-> [<- F]]].
    exists ((c, sp) :: s1 ++ s). split; [cbn [app]; rewrite <- app_assoc; reflexivity|].
    ch. cbn [opt_flat app2 fst snd app]. rewrite <- Ho.
    split; [reflexivity|]. constructor; auto.
  - exists []. split; [reflexivity|]. split; [reflexivity|]. constructor.
Qed.

Definition is_dec (v : text) : bool :=
  existsb (fun c => (c =? 0x2E) || (c =? 0x65) || (c =? 0x45))%N v.

Lemma is_dec_digits l : Forall (digit_or_underscore 10) l -> is_dec l = false.
Proof.
  induction 1 as [|c l H F IH]; [reflexivity|]. unfold is_dec in *. cbn [existsb].
  rewrite IH, orb_false_r. unfold digit_or_underscore in H. rewrite dec_digit_spec in H. lia.
Qed.

Lemma is_dec_app a b : is_dec (a ++ b) = is_dec a || is_dec b.
Proof. apply existsb_app. Qed.

Lemma is_dec_sign a : opt_sign_text a -> is_dec a = false.
Proof. destruct 1 as [|c [->| ->]]; reflexivity. Qed.

Lemma integer_digits s : integer_text 10 s -> Forall (digit_or_underscore 10) s.
Proof. destruct 1. constructor; [right|]; auto. Qed.

Lemma is_dec_frac f e : fraction_text f -> exponent_text e ->
  is_dec (f ++ e) = match f ++ e with [] => false | _ => true end.
Proof.
  intros [|t T] [|x sg ds X O D]; cbn [app]; auto.
  destruct X; subst; reflexivity.
Qed.

Lemma no_underscore_sign a : opt_sign_text a -> no_underscore a = a.
Proof. destruct 1 as [|c [->| ->]]; reflexivity. Qed.

Lemma decimal_value a s f e : opt_sign_text a -> integer_text 10 s ->
  fraction_text f -> exponent_text e ->
  decimal_literal (a ++ s ++ f ++ e)
  = match f ++ e with
    | [] => LInt Dec (a ++ no_underscore s)
    | _ => LDecimal (a ++ no_underscore (s ++ f ++ e))
    end.
Proof.
  intros A S F X. unfold decimal_literal. fold (is_dec (a ++ s ++ f ++ e)).
  rewrite !is_dec_app, is_dec_sign, is_dec_digits by (auto; apply integer_digits; auto).
  rewrite <- is_dec_app, is_dec_frac by auto. cbn [orb].
  destruct (f ++ e) eqn:Q.
  - rewrite app_nil_r, no_underscore_app, no_underscore_sign by auto. reflexivity.
  - rewrite no_underscore_app, no_underscore_sign by auto. reflexivity.
Qed.

Lemma decimal_sound ts l rest : good (decimal_number ts) l rest ->
  exists s, ts = s ++ rest /\ number_text (chars s) l.
Proof.
  unfold decimal_number. intros G. apply good_map in G. destruct G as [v [G ->]].
  apply good_map in G. destruct G as [[v1 te] [G ->]].
  apply good_then in G. destruct G as [v2 [te' [r1 [G [Ge X]]]]].
  inversion X; subst v2 te'; clear X.
  apply good_map in G. destruct G as [[v2 tf] [G X]].
  apply good_then in G. destruct G as [v3 [tf' [r2 [G [Gf Y]]]]].
  inversion Y; subst v3 tf'; clear Y.
  apply good_map in G. destruct G as [[v3 td] [G Y]].
  apply good_then in G. destruct G as [v4 [td' [r3 [G [Gd Z]]]]].
  inversion Z; subst v4 td'; clear Z.
  apply good_map in G. destruct G as [[o d] [G Z]].
  apply good_then in G. destruct G as [o' [d' [r4 [Go [G1 W]]]]].
  inversion W; subst o' d'; clear W.
  apply opt_sign_sound in Go. destruct Go as [a [-> [A Ao]]].
  apply (one_digit 10) in G1; [|lia]. destruct G1 as [sp [-> D]].
  apply digits_sound in Gd; [|lia]. destruct Gd as [s [-> [<- F]]].
  apply fraction_sound in Gf. destruct Gf as [f [-> [<- Ff]]].
  apply exponent_sound in Ge. destruct Ge as [e [-> [<- Fe]]].
  exists (a ++ ((d, sp) :: s) ++ f ++ e).
  split; [aa|].
  subst v1 v2 v3. unfold app2. cbn [fst snd]. rewrite <- Ao.
  assert (integer_text 10 (d :: chars s)) as I by (constructor; auto).
  match goal with |- number_text _ (decimal_literal ?v) =>
    replace v with (chars a ++ (d :: chars s) ++ chars f ++ chars e) end.
  2:{ rewrite <- !app_assoc. cbn [app]. reflexivity. }
  rewrite decimal_value by auto. rewrite chars_app, chars_app, chars_c, chars_app. cbn [fst].
  destruct (chars f ++ chars e) eqn:Q.
  - rewrite app_nil_r. apply Num_int; auto. apply stripped_spec. reflexivity.
  - rewrite <- Q. apply Num_decimal; auto; [congruence|]. apply stripped_spec. reflexivity.
Qed.

Lemma number_sound ts l rest : good (number ts) l rest ->
  exists s, ts = s ++ rest /\ number_text (chars s) l.
Proof.
  unfold number. intros G. apply good_or_q in G; [|apply quiet_radix_number].
  destruct G as [G|[G _]]; [apply radix_sound in G|apply decimal_sound in G]; exact G.
Qed.

(** What may follow a number. *)
Definition num_stop (t : text) : Prop :=
  stop (fun c => In c (str "0123456789abcdefABCDEF_.+-xo")) t.

Lemma num_stop_digits n r : (n <= 16)%N -> num_stop r -> stop (digit_or_underscore n) r.
Proof.
  intros L. unfold num_stop, stop. destruct r as [|c r]; [auto|].
  intros H X. apply H. destruct X as [X|[d [X [Y|Y]]]].
  - subst. vm_compute. tauto.
  - assert (N.to_nat d < 16)%nat as K by lia.
    apply nth_error_In in Y. clear -Y. cbn in Y |- *. tauto.
  - apply nth_error_In in Y. clear -Y. cbn in Y |- *. tauto.
Qed.

Lemma num_stop_not x r : num_stop r -> In x (str "0123456789abcdefABCDEF_.+-xo") ->
  hd_error r <> Some x.
Proof.
  unfold num_stop, stop. destruct r; [discriminate|]. intros H I X. inversion X; subst. auto.
Qed.

Lemma sign_hd r : stop sign_char r <-> hd_error r <> Some 0x2D%N /\ hd_error r <> Some 0x2B%N.
Proof.
  unfold stop, sign_char. destruct r; cbn [hd_error].
  - split; [intros _; split; discriminate|auto].
  - split.
    + intros H. split; intros X; inversion X; tauto.
    + intros [A B] [X|X]; subst; [apply B|apply A]; reflexivity.
Qed.

Lemma radix_digits_failed x n r ts : hd_error (chars ts) <> Some x ->
  failed (@radix_digits Sp E x n r ts).
Proof. intros H. rewrite radix_digits_eq. apply failed_ignore_then1, failed_just_iff, H. Qed.

Lemma radix_digits_complete x n r sp u rest : (n <= 16)%N -> integer_text n (chars u) ->
  num_stop (chars rest) -> succ (radix_digits x n r ((x, sp) :: u ++ rest)) (r, chars u) rest.
Proof.
  intros L H X. rewrite radix_digits_eq. eapply succ_ignore_then; [apply succ_just|].
  apply (succ_map (fun s => (r, s))). apply int_complete; auto. apply num_stop_digits; auto.
Qed.

Lemma radix_complete a sp x sq u n r rest : opt_sign_text (chars a) ->
  In (x, n, r) radix_prefixes -> integer_text n (chars u) -> num_stop (chars rest) ->
  succ (radix_number (a ++ (0x30%N, sp) :: (x, sq) :: u ++ rest))
    (LInt r (chars a ++ no_underscore (chars u))) rest.
Proof.
  intros A I H X.
  destruct (opt_sign_complete a ((0x30%N, sp) :: (x, sq) :: u ++ rest) A) as [o [O1 O2]].
  { intros _. ch. intros [Y|Y]; discriminate. }
  rewrite <- O2. unfold radix_number.
  apply (succ_map (fun r0 : option char * (radix * text) =>
      LInt (fst (snd r0)) (opt_list (fst r0) ++ no_underscore (snd (snd r0)))) _ _
      (o, (r, chars u))).
  eapply succ_then; [eapply succ_then_ignore; [exact O1|apply succ_just]|].
  unfold radix_prefixes in I. cbn [In] in I.
  destruct I as [I|[I|[I|[]]]]; inversion I; subst; unfold p_choice.
  - apply succ_choice_hit, radix_digits_complete; auto; lia.
  - apply succ_choice_miss; [apply radix_digits_failed; ch; discriminate|]. intros ?.
    apply succ_choice_hit, radix_digits_complete; auto; lia.
  - apply succ_choice_miss; [apply radix_digits_failed; ch; discriminate|]. intros ?.
    apply succ_choice_miss; [apply radix_digits_failed; ch; discriminate|]. intros ?.
    apply succ_choice_hit, radix_digits_complete; auto; lia.
Qed.

Lemma fraction_complete f rest : fraction_text (chars f) ->
  stop (digit_or_underscore 10) (chars rest) ->
  (f = [] -> hd_error (chars rest) <> Some 0x2E%N) ->
  succ (fraction (f ++ rest)) (chars f) rest.
Proof.
  intros F X Y. unfold fraction. remember (chars f) as cf. destruct F as [|t T].
  - symmetry in Heqcf. apply chars_nil in Heqcf. subst.
    apply (succ_map opt_flat _ _ None). apply succ_or_not_none.
    apply failed_map, failed_then1, failed_map, failed_then1, failed_just_iff. cbn [app]. auto.
  - symmetry in Heqcf. apply chars_cons in Heqcf. destruct Heqcf as [sp [u [-> Z]]].
    destruct T as [d ds D F]. apply chars_cons in Z. destruct Z as [sq [v [-> Z]]]. subst ds.
    apply (succ_map opt_flat _ _ (Some (0x2E%N :: d :: chars v))). apply succ_or_not_some.
    apply (succ_map app2 _ _ ([0x2E%N; d], chars v)).
    eapply succ_then.
    + apply (succ_map (fun r => [fst r; snd r]) _ _ (0x2E%N, d)). cbn [app].
      eapply succ_then; [apply succ_just|]. apply (one_digit 10); [lia|exact D].
    + apply digits_complete; auto. lia.
Qed.

Lemma failed_exp ts : hd_error (chars ts) <> Some 0x65%N -> hd_error (chars ts) <> Some 0x45%N ->
  failed (p_or (p_just 0x65%N) (p_just 0x45%N) ts).
Proof. intros. apply failed_or; apply failed_just_iff; auto. Qed.

Lemma exponent_complete e rest : exponent_text (chars e) ->
  stop (digit_or_underscore 10) (chars rest) -> stop sign_char (chars rest) ->
  (e = [] -> hd_error (chars rest) <> Some 0x65%N /\ hd_error (chars rest) <> Some 0x45%N) ->
  succ (exponent (e ++ rest)) (chars e) rest.
Proof.
  intros F X W Y. unfold exponent. remember (chars e) as ce. destruct F as [|c sg ds C O D].
  - symmetry in Heqce. apply chars_nil in Heqce. subst.
    apply (succ_map opt_flat _ _ None). apply succ_or_not_none.
    destruct (Y eq_refl). apply failed_map, failed_then1, failed_map, failed_then1, failed_exp; auto.
  - symmetry in Heqce. apply chars_cons in Heqce. destruct Heqce as [sp [u [-> Z]]].
    apply chars_split in Z. destruct Z as [a [v [-> [Z1 Z2]]]]. subst sg ds.
    destruct (opt_sign_complete a (v ++ rest) O) as [o [O1 O2]].
    { intros _. destruct v as [|[x sx] v]; [exact W|]. ch. intros S.
      rewrite chars_c in D. inversion D as [|? ? D1 D2]. cbn [fst] in D1.
      destruct D1 as [D1|D1]; [destruct S; subst; discriminate|].
      rewrite dec_digit_spec in D1. destruct S; subst; lia. }
    apply (succ_map opt_flat _ _ (Some (c :: chars a ++ chars v))). apply succ_or_not_some.
    rewrite <- O2.
    apply (succ_map app2 _ _ (c :: opt_list o, chars v)).
    eapply succ_then.
    + apply (succ_map (fun r => fst r :: opt_list (snd r)) _ _ (c, o)). cbn [app].
      rewrite <- app_assoc. eapply succ_then; [|exact O1].
      destruct C; subst c; [apply succ_or_l, succ_just|].
      apply succ_or_r; [apply failed_just; discriminate|apply succ_just].
    + apply digits_complete; auto. lia.
Qed.

Lemma frac_hd f : fraction_text f -> f = [] \/ hd_error f = Some 0x2E%N.
Proof. destruct 1; auto. Qed.

Lemma exp_hd e : exponent_text e -> e = [] \/ hd_error e = Some 0x65%N \/ hd_error e = Some 0x45%N.
Proof. destruct 1 as [|c sg ds [->| ->]]; auto. Qed.

(** What follows the integer part. *)
Lemma frac_exp_hd (f e rest : toks) : fraction_text (chars f) -> exponent_text (chars e) ->
  num_stop (chars rest) ->
  match hd_error (chars (f ++ e ++ rest)) with
  | None => True
  | Some c => (c = 0x2E \/ c = 0x65 \/ c = 0x45
               \/ ~ In c (str "0123456789abcdefABCDEF_.+-xo"))%N
  end.
Proof.
  intros F X S. rewrite !chars_app.
  destruct (frac_hd _ F) as [->|Hf]; [|rewrite (hd_app _ _ _ Hf); auto].
  cbn [app]. destruct (exp_hd _ X) as [->|[He|He]]; [|rewrite (hd_app _ _ _ He); auto..].
  cbn [app]. unfold num_stop, stop in S. destruct (chars rest); cbn [hd_error]; auto.
Qed.

Lemma hd_stop P t : (forall c, hd_error t = Some c -> ~ P c) -> stop P t.
Proof. destruct t; simpl; auto. Qed.

Lemma frac_exp_stop (f e rest : toks) : fraction_text (chars f) -> exponent_text (chars e) ->
  num_stop (chars rest) -> stop (digit_or_underscore 10) (chars (f ++ e ++ rest)).
Proof.
  intros F X S. pose proof (frac_exp_hd f e rest F X S) as H. apply hd_stop.
  intros c Hc. rewrite Hc in H. unfold digit_or_underscore. rewrite dec_digit_spec.
  destruct H as [->|[->|[->|H]]]; try lia.
  assert (stop (digit_or_underscore 10) [c]) as K by (apply num_stop_digits; [lia|exact H]).
  simpl in K. unfold digit_or_underscore in K. rewrite dec_digit_spec in K. exact K.
Qed.

Lemma decimal_complete a s f e rest : opt_sign_text (chars a) ->
  integer_text 10 (chars s) -> fraction_text (chars f) -> exponent_text (chars e) ->
  num_stop (chars rest) ->
  succ (decimal_number (a ++ s ++ f ++ e ++ rest))
    (decimal_literal (chars a ++ chars s ++ chars f ++ chars e)) rest.
Proof.
  intros A S F X R. pose proof (frac_exp_hd f e rest F X R) as FE.
  pose proof (frac_exp_stop f e rest F X R) as St.
  remember (chars s) as cs. destruct S as [d ds D Ds].
  symmetry in Heqcs. apply chars_cons in Heqcs. destruct Heqcs as [sp [v [-> Z]]]. subst ds.
  destruct (opt_sign_complete a (((d, sp) :: v) ++ f ++ e ++ rest) A) as [o [O1 O2]].
  { intros _. cbn [app]. ch. rewrite dec_digit_spec in D. unfold sign_char, stop. lia. }
  unfold decimal_number.
  apply (succ_map decimal_literal).
  match goal with |- succ _ ?x _ =>
    replace x with (app2 (app2 (app2 (opt_list o ++ [d], chars v), chars f), chars e)) end.
  2:{ unfold app2. cbn [fst snd]. rewrite O2, <- !app_assoc. reflexivity. }
  apply succ_map. eapply succ_then.
  { apply succ_map. eapply succ_then.
    - apply succ_map. eapply succ_then.
      + apply (succ_map (fun r => opt_list (fst r) ++ [snd r]) _ _ (o, d)).
        eapply succ_then; [exact O1|]. cbn [app]. apply (one_digit 10); [lia|exact D].
      + apply digits_complete; [lia|exact Ds|exact St].
    - apply fraction_complete; [exact F| |].
      + apply (frac_exp_stop [] e rest); auto. constructor.
      + intros ->. intros Q. rewrite chars_app in Q.
        destruct (exp_hd _ X) as [Y|[Y|Y]].
        * rewrite Y in Q. cbn [app] in Q. eapply num_stop_not; [exact R| |exact Q].
          vm_compute. tauto.
        * rewrite (hd_app _ _ _ Y) in Q. discriminate.
        * rewrite (hd_app _ _ _ Y) in Q. discriminate. }
  apply exponent_complete; [exact X| | |].
  - apply num_stop_digits; [lia|exact R].
  - apply sign_hd. split; apply num_stop_not; auto; vm_compute; tauto.
  - intros _. split; apply num_stop_not; auto; vm_compute; tauto.
Qed.

Lemma radix_failed a s f e rest : opt_sign_text (chars a) ->
  integer_text 10 (chars s) -> fraction_text (chars f) -> exponent_text (chars e) ->
  num_stop (chars rest) -> failed (radix_number (a ++ s ++ f ++ e ++ rest)).
Proof.
  intros A S F X R. pose proof (frac_exp_hd f e rest F X R) as FE.
  remember (chars s) as cs. destruct S as [d ds D Ds].
  symmetry in Heqcs. apply chars_cons in Heqcs. destruct Heqcs as [sp [v [-> Z]]]. subst ds.
  destruct (opt_sign_complete a (((d, sp) :: v) ++ f ++ e ++ rest) A) as [o [O1 O2]].
  { intros _. cbn [app]. ch. rewrite dec_digit_spec in D. unfold sign_char, stop. lia. }
  unfold radix_number. apply failed_map.
  cbn [app] in *. destruct (N.eq_dec d 0x30) as [->|N0].
  - eapply failed_then2; [eapply succ_then_ignore; [exact O1|apply succ_just]|].
    assert (forall x, In x [0x62; 0x6F; 0x78]%N ->
      hd_error (chars (v ++ f ++ e ++ rest)) <> Some x) as K.
    { intros x I Q. destruct v as [|[y sy] v].
      - cbn [app] in Q. rewrite Q in FE. destruct FE as [->|[->|[->|FE]]];
          try (cbn in I; lia). apply FE. cbn [In] in I.
        destruct I as [<-|[<-|[<-|[]]]]; vm_compute; tauto.
      - cbn [app] in Q. rewrite chars_c in Q. cbn [hd_error fst] in Q. inversion Q; subst y.
        rewrite chars_c in Ds. inversion Ds as [|? ? D1 D2]. cbn [fst] in D1.
        destruct D1 as [D1|D1]; [|rewrite dec_digit_spec in D1]; cbn in I; lia. }
    unfold p_choice. repeat (apply failed_choice; [apply radix_digits_failed; apply K; cbn; tauto|intros ?]).
    apply failed_choice_nil.
  - apply failed_then1. eapply failed_then_ignore2; [exact O1|].
    apply failed_just. exact N0.
Qed.

Lemma number_complete s l rest : number_text (chars s) l -> num_stop (chars rest) ->
  succ (number (s ++ rest)) l rest.
Proof.
  intros H R. remember (chars s) as cs.
  assert (forall a t f e, chars s = a ++ t ++ f ++ e -> opt_sign_text a ->
    integer_text 10 t -> fraction_text f -> exponent_text e ->
    succ (number (s ++ rest)) (decimal_literal (a ++ t ++ f ++ e)) rest) as K.
  { intros a t f e Q A T F X. apply chars_split in Q. destruct Q as [u1 [u [-> [<- Q]]]].
    apply chars_split in Q. destruct Q as [u2 [u' [-> [<- Q]]]].
    apply chars_split in Q. destruct Q as [u3 [u4 [-> [<- <-]]]].
    rewrite <- !app_assoc. unfold number. apply succ_or_r; [apply radix_failed; auto|].
    apply decimal_complete; auto. }
  destruct H as [sg x n r t t' A I T St|sg t t' A T St|sg t f e t' A T F X N St].
  - symmetry in Heqcs. apply chars_split in Heqcs. destruct Heqcs as [u1 [u [-> [<- Q]]]].
    apply chars_cons in Q. destruct Q as [sp [u2 [-> Q]]].
    apply chars_cons in Q. destruct Q as [sq [u3 [-> <-]]].
    rewrite <- app_assoc. cbn [app]. unfold number. apply succ_or_l.
    apply stripped_spec in St. subst. eapply radix_complete; eauto.
  - specialize (K sg t [] []). rewrite !app_nil_r in K.
    pose proof (decimal_value sg t [] [] A T Frac_none Exp_none) as V. rewrite !app_nil_r in V.
    rewrite V in K. cbn [app] in K. apply stripped_spec in St. subst t'.
    apply K; auto; constructor.
  - specialize (K sg t f e). rewrite decimal_value in K by auto.
    apply stripped_spec in St. subst t'.
    destruct (f ++ e) eqn:Q; [congruence|]. apply K; auto.
Qed.

Lemma number_start s l : number_text s l ->
  exists c t, s = c :: t /\ (sign_char c \/ digit_char 10 c).
Proof.
  assert (forall sg t u, opt_sign_text sg -> integer_text 10 t ->
    exists c v, sg ++ t ++ u = c :: v /\ (sign_char c \/ digit_char 10 c)) as K.
  { intros sg t u [|c H] [d ds D F]; cbn [app]; eauto. }
  destruct 1 as [sg x n r t t' A I T St|sg t t' A T St|sg t f e t' A T F X N St].
  - destruct A as [|c H]; cbn [app]; eauto. exists 0x30%N, (x :: t). split; [reflexivity|].
    right. rewrite dec_digit_spec. lia.
  - specialize (K sg t [] A T). rewrite app_nil_r in K. exact K.
  - apply K; auto.
Qed.

(** The parser fails where no number begins. *)
Lemma S_number : forall n, @safe Sp _ n number.
Proof. apply GrammarSafe.S_number. Qed.

Lemma number_failed ts : (forall s r l, chars ts = s ++ r -> number_text s l -> False) ->
  failed (number ts).
Proof.
  intros H. destruct (failed_or_good number ts quiet_number S_number) as [F|[a [rest G]]]; [auto|].
  apply number_sound in G. destruct G as [s [-> X]]. exfalso. eapply H; [|exact X].
  apply chars_app.
Qed.

End Lit.
