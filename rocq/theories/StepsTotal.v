(** The steps of the whole parser. *)

From Coq Require Import NArith PeanoNat List Bool String Lia ZifyBool.
From Verif Require Import Chars Ast Errors Chumsky Spans Grammar Safe GrammarSafe Near GrammarNear
  Kdl Good LexSpace DocSafe Meaning SpanProps Steps StepsProps StepsBound StepsNodes StepsComment.
Import ListNotations.
Local Open Scope nat_scope.
Local Open Scope list_scope.

Section Total.
Context {Sp : Type} {E : env Sp}.

Notation parser := (parser Sp).
Notation timed := (timed Sp).
Notation toks := (toks Sp).
Notation len := (@List.length (tok Sp)).

Lemma comments_at_most (W : toks) : at_most t_ml_comment W (4 + cap W).
Proof.
  intros ts S. unfold t_ml_comment. cbn [t_steps].
  eapply Nat.le_trans; [apply level_all|]. pose proof (cap_suffix _ _ S).
  destruct (sl 0x2A%N ts) eqn:Y; [|lia].
  apply openers_sl in Y. destruct Y as [a [b [ts' [-> _]]]]. cbn [skipn].
  pose proof (cap_suffix ts' W) as C. apply suffix_tail, suffix_tail in S. specialize (C S). lia.
Qed.

(** ** The parts of a node at the end of its block *)

Lemma stop_hd f (ts : toks) : f 0x7D%N = false -> stop ts -> hd f ts = false.
Proof. destruct ts as [|[c s] ts]; [reflexivity|]. cbn [stop]. intros F ->. exact F. Qed.

Lemma or_not_none {A} (p : parser A) ts : failed (p ts) ->
  exists a alt, r_out (p_or_not p ts) = Ok a ts alt.
Proof. intros [e H]. unfold p_or_not. rewrite H. eexists _, _. reflexivity. Qed.

Lemma skip_at_stop ts : stop ts ->
  exists a alt, r_out (t_parser (@t_slashdash Sp E) ts) = Ok a ts alt.
Proof.
  intros S. rewrite slashdash_timed. unfold slashdash. apply or_not_none.
  apply failed_map, failed_then1. eapply rej_failed; [apply rej_begin_comment|].
  apply stop_hd; auto.
Qed.

Lemma type_at_stop ts : stop ts ->
  exists a alt, r_out (t_parser (t_or_not (t_spanned (@t_type_name Sp E))) ts) = Ok a ts alt.
Proof.
  intros S. rewrite opt_type_timed. apply or_not_none.
  eapply rej_failed; [apply rej_spanned, rej_type_name|]. apply stop_hd; auto.
Qed.

Lemma name_at_stop ts : stop ts -> errs (t_parser (t_spanned (@t_ident Sp E)) ts).
Proof.
  intros S. rewrite spanned_ident_timed.
  eapply rej_failed; [apply rej_spanned, rej_ident|]. apply stop_hd; auto.
Qed.

Lemma term_at_brace ts a mid alt : r_out (t_parser (@t_slashdash Sp E) ts) = Ok a mid alt ->
  brace mid -> errs (t_parser (@t_node_terminator Sp E) ts).
Proof.
  rewrite slashdash_timed, terminator_timed. unfold slashdash, p_or_not.
  intros R B.
  assert ((exists s r, ts = (0x7B%N, s) :: r) \/ sl 0x2D%N ts = true) as K.
  { destruct (r_out (p_then_ignore _ _ ts)) as [x r al|e] eqn:R1.
    - right. unfold p_then_ignore in R1. apply StepsNodes.map_ok in R1. destruct R1 as [y R1].
      apply StepsNodes.then_ok in R1. destruct R1 as [a1 [a2 [r1 [al1 [al2 [R1 R2]]]]]].
      eapply begin_comment_ok, R1.
    - left. cbn [r_out] in R. assert (mid = ts) as -> by congruence.
      destruct ts as [|[c s] ts]; [destruct B|]. cbn [brace] in B. subst c. eauto. }
  unfold node_terminator, p_choice.
  destruct K as [[s [r ->]]|Y].
  - repeat (apply failed_choice; [|intros]); [| | | |apply failed_choice_nil].
    + apply newline_failed. cbn. unfold newline_chars. cbn [In]. lia.
    + apply comment_failed. cbn. intros [p H]. discriminate H.
    + apply failed_map. eexists. reflexivity.
    + eexists. reflexivity.
  - destruct ts as [|[c s] [|[d s'] ts]]; try discriminate. cbn [sl] in Y.
    apply andb_prop in Y. rewrite !N.eqb_eq in Y. destruct Y as [-> ->].
    repeat (apply failed_choice; [|intros]); [| | | |apply failed_choice_nil].
    + apply newline_failed. cbn. unfold newline_chars. cbn [In]. lia.
    + apply comment_failed. cbn. intros [p H]. discriminate H.
    + apply failed_map. eexists. reflexivity.
    + eexists. reflexivity.
Qed.

(** ** Nodes *)

Lemma nodes_body_eq n :
  @t_nodes_body Sp E n
  = many (t_repeated t_line_space) t_slashdash (t_or_not (t_spanned t_type_name))
      (t_spanned t_ident) t_node_items (t_repeated t_node_space) t_node_terminator
      make_node (flat_map keep_node) n.
Proof. reflexivity. Qed.

Definition parts_at_most (W : toks) (P : nat) : Prop :=
  at_most (@t_repeated Sp unit t_line_space) W P /\ at_most (@t_slashdash Sp E) W P
  /\ at_most (t_or_not (t_spanned (@t_type_name Sp E))) W P
  /\ at_most (t_spanned (@t_ident Sp E)) W P /\ at_most (@t_node_items Sp E) W P
  /\ at_most (t_repeated (@t_node_space Sp E)) W P /\ at_most (@t_node_terminator Sp E) W P.

Lemma parts_shrink :
  shrinks (t_parser (@t_repeated Sp unit t_line_space)) /\ shrinks (t_parser (@t_slashdash Sp E))
  /\ shrinks (t_parser (t_or_not (t_spanned (@t_type_name Sp E))))
  /\ shrinks (t_parser (t_spanned (@t_ident Sp E))) /\ shrinks (t_parser (@t_node_items Sp E))
  /\ shrinks (t_parser (t_repeated (@t_node_space Sp E)))
  /\ shrinks (t_parser (@t_node_terminator Sp E)).
Proof.
  split; [apply cheap_line_spaces|]. split; [apply cheap_slashdash|].
  split; [apply cheap_opt_type|]. split; [apply cheap_spanned_ident|].
  split; [apply cheap_node_items|]. split; [apply cheap_node_spaces|apply cheap_node_terminator].
Qed.

Lemma nodes_shrink f : shrinks (@nodes_rec Sp E f).
Proof.
  induction f as [|f IH]; [intros ts a rest alt H; discriminate H|].
  cbn [nodes_rec].
  change (nodes_rec f) with (t_parser (Timed (@nodes_rec Sp E f) (nodes_steps f))).
  rewrite <- nodes_body_timed. unfold t_nodes_body. rewrite map_parser.
  apply shrinks_map, shrinks_separated; [|apply parts_shrink].
  rewrite then_parser. apply shrinks_then; [apply parts_shrink|].
  apply shrinks_map_with_span. unfold t_node. rewrite map_parser. apply shrinks_map.
  rewrite then_ignore_parser. apply shrinks_then_ignore.
  - rewrite then_parser. apply shrinks_then.
    + repeat (rewrite then_parser; apply shrinks_then); apply parts_shrink.
    + apply shrinks_or_not. rewrite then_parser. apply shrinks_then.
      * rewrite ignore_then_parser. apply shrinks_ignore_then; apply parts_shrink.
      * apply shrinks_map_with_span. rewrite braced_parser.
        apply shrinks_ignore_then; [apply shrinks_just|].
        apply shrinks_map_err_with_span, shrinks_then_ignore; [exact IH|apply shrinks_just].
  - rewrite then_parser. apply shrinks_then; apply parts_shrink.
Qed.

Lemma nodes_paid W P f : 1 <= P -> parts_at_most W P -> forall ts, suffix ts W -> len ts < f ->
  exists x rest alt,
    r_out (nodes_rec f ts) = Ok x rest alt /\ paid (20 * P) ts rest (nodes_steps f ts).
Proof.
  intros HP HB. induction f as [|f IH]; intros ts S L; [lia|].
  rewrite nodes_steps_succ. cbn [nodes_rec].
  assert (nodes_body (nodes_rec f) = t_parser (t_nodes_body (Timed (@nodes_rec Sp E f) (nodes_steps f)))) as ->
    by (rewrite nodes_body_timed; reflexivity).
  rewrite nodes_body_eq.
  apply (many_paid W P (20 * P) (le_n _) HP) with (f := f).
  - exact HB.
  - exact parts_shrink.
  - rewrite spanned_ident_timed. apply eats_spanned, eats_ident.
  - apply skip_at_stop.
  - apply type_at_stop.
  - apply name_at_stop.
  - apply term_at_brace.
  - apply nodes_shrink.
  - intros ts' S' L'. cbn [t_parser t_steps].
    destruct (IH ts' S' L') as [x [rest [alt [R H]]]]. rewrite R. exact H.
  - exact S.
  - lia.
Qed.

End Total.

Lemma parts_bound {Sp : Type} : exists K k, 1 <= K /\ forall (E : env Sp) W M,
  at_most (@t_ml_comment Sp E) W M -> @parts_at_most Sp E W (K * poly W k M).
Proof.
  destruct (@cheap_line_spaces Sp) as [_ [K1 [k1 H1]]].
  destruct (@cheap_slashdash Sp) as [_ [K2 [k2 H2]]].
  destruct (@cheap_opt_type Sp) as [_ [K3 [k3 H3]]].
  destruct (@cheap_spanned_ident Sp) as [_ [K4 [k4 H4]]].
  destruct (@cheap_node_items Sp) as [_ [K5 [k5 H5]]].
  destruct (@cheap_node_spaces Sp) as [_ [K6 [k6 H6]]].
  destruct (@cheap_node_terminator Sp) as [_ [K7 [k7 H7]]].
  exists (1 + K1 + K2 + K3 + K4 + K5 + K6 + K7), (k1 + k2 + k3 + k4 + k5 + k6 + k7).
  split; [lia|]. intros E W M HM.
  assert (forall A (p : timed Sp A) K k K' k', at_most p W (K * poly W k M) ->
    K <= K' -> k <= k' -> at_most p W (K' * poly W k' M)) as G.
  { intros A p K k K' k' H LK Lk ts S. eapply Nat.le_trans; [apply H, S|].
    apply Nat.mul_le_mono; [exact LK|]. apply poly_le, Lk. }
  split; [eapply G; [apply H1, HM|lia|lia]|]. split; [eapply G; [apply H2, HM|lia|lia]|].
  split; [eapply G; [apply H3, HM|lia|lia]|]. split; [eapply G; [apply H4, HM|lia|lia]|].
  split; [eapply G; [apply H5, HM|lia|lia]|]. split; eapply G; [apply H6, HM|lia|lia|apply H7, HM|lia|lia].
Qed.

Lemma document_bound {Sp : Type} : exists K k, forall (E : env Sp) (ts : toks Sp),
  t_steps (@t_document Sp E) ts <= K * (List.length ts + 3) ^ k * 2 ^ openers (chars ts).
Proof.
  destruct (@parts_bound Sp) as [K [k [HK H]]].
  exists (20 * K * 13 + 1), (k + 2). intros E ts.
  pose proof (H E ts _ (comments_at_most ts)) as HB.
  set (P := K * poly ts k (4 + cap ts)) in *.
  assert (1 <= P) as HP by (subst P; pose proof (poly_pos ts k (4 + cap ts)); nia).
  destruct (nodes_paid ts P (S (List.length ts)) HP HB ts (suffix_refl _) (Nat.lt_succ_diag_r _))
    as [x [rest [alt [R Q]]]].
  assert (t_steps (@t_document Sp E) ts <= 20 * P * (List.length ts + 1) + 1) as B.
  { unfold t_document. rewrite steps_then_ignore, steps_then.
    assert (@t_steps Sp (document Sp) (@t_nodes Sp E) ts = nodes_steps (S (List.length ts)) ts) as ->
      by (unfold t_nodes; rewrite steps_timed; reflexivity).
    assert (nodes_steps (S (List.length ts)) ts <= 20 * P * (List.length ts + 1)) as B.
    { destruct Q as [Q|[_ Q]]; [|exact Q]. eapply Nat.le_trans; [exact Q|].
      apply Nat.mul_le_mono_l. lia. }
    assert (forall r : toks Sp, t_steps (@t_end Sp E) r = 1) as T by reflexivity.
    destruct (r_out (@t_parser Sp (document Sp) t_nodes ts)) as [y r al|e]; [rewrite T|]; lia. }
  eapply Nat.le_trans; [exact B|]. subst P. unfold poly, cap.
  assert (1 <= 2 ^ openers (chars ts)) by (apply Nat.neq_0_lt_0, Nat.pow_nonzero; lia).
  assert (1 <= (List.length ts + 3) ^ k) by (apply Nat.neq_0_lt_0, Nat.pow_nonzero; lia).
  rewrite Nat.pow_add_r. replace ((List.length ts + 3) ^ 2) with ((List.length ts + 3) * (List.length ts + 3))
    by (cbn [Nat.pow]; lia).
  assert (4 + 8 * (List.length ts + 1) * 2 ^ openers (chars ts) + 1
          <= 13 * ((List.length ts + 3) * 2 ^ openers (chars ts))) as B2 by nia.
  clear - HK B2 H0 H1.
  set (n := List.length ts) in *. set (c := 2 ^ openers (chars ts)) in *. set (p := (n + 3) ^ k) in *.
  clearbody n c p.
  set (m := 4 + 8 * (n + 1) * c + 1) in *. clearbody m.
  assert (20 * (K * (p * m)) * (n + 1) <= 20 * (K * (p * (13 * ((n + 3) * c)))) * (n + 3)) as B3.
  { apply Nat.mul_le_mono; [|lia]. repeat apply Nat.mul_le_mono_l. exact B2. }
  replace ((20 * K * 13 + 1) * (p * ((n + 3) * (n + 3))) * c)
    with (20 * (K * (p * (13 * ((n + 3) * c)))) * (n + 3) + p * ((n + 3) * (n + 3)) * c) by lia.
  assert (1 <= p * ((n + 3) * (n + 3)) * c) by nia. lia.
Qed.

(** At most a polynomial of the length, doubled with each opening of a block
    comment. *)
Lemma parse_steps_bound : exists K k, forall t,
  parse_steps t <= K * (List.length t + 3) ^ k * 2 ^ openers t.
Proof.
  destruct (@document_bound span) as [K [k H]]. exists K, k. intros t.
  unfold parse_steps, span_stream.
  match goal with |- t_steps (@t_document span ?E) ?ts <= _ => specialize (H E ts) end.
  rewrite offset_chars, offset_length in H. exact H.
Qed.

(** So polynomially many where the number of openings is bounded. *)
Lemma parse_steps_poly m : exists K k, forall t, openers t <= m ->
  parse_steps t <= K * (List.length t + 3) ^ k.
Proof.
  destruct parse_steps_bound as [K [k H]]. exists (K * 2 ^ m), k. intros t O.
  eapply Nat.le_trans; [apply H|].
  apply (Nat.pow_le_mono_r 2) in O; [|lia].
  replace (K * 2 ^ m * (List.length t + 3) ^ k) with (K * (List.length t + 3) ^ k * 2 ^ m) by lia.
  apply Nat.mul_le_mono_l, O.
Qed.
