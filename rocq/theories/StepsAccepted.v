(** Texts that are accepted can take exponentially many steps too. *)

From Coq Require Import NArith PeanoNat List Bool String Lia.
From Verif Require Import Chars Ast Errors Chumsky Spans Grammar Safe GrammarSafe Near GrammarNear
  Kdl KdlText Good LexSpace Nodes NodesComplete DocSafe Observe Meaning SpanProps Steps StepsProps.
Import ListNotations.
Local Open Scope nat_scope.
Local Open Scope list_scope.

Section Accepted.
Context {Sp : Type} {E : env Sp}.

Notation toks := (toks Sp).
Notation len := (@List.length (tok Sp)).

Ltac len_lia := cbn [List.length]; unfold Chumsky.toks, tok, Chars.char in *; lia.

(** An opening, a slash and a closing that share a star, [n] times. *)
Inductive halves : nat -> toks -> Prop :=
| Ha_nil : halves 0 []
| Ha_cons n a b c d e ts : halves n ts ->
    halves (S n) ((0x2F%N, a) :: (0x2A%N, b) :: (0x2F%N, c) :: (0x2A%N, d) :: (0x2F%N, e) :: ts).

Lemma halves_hd n ts (x : Sp) : halves n ts -> ~ prefix (str "/*") (chars ((0x2F%N, x) :: ts)).
Proof. intros H [u U]. destruct H; discriminate. Qed.

Lemma item_nil f : failed (ml_item (@ml_comment_rec Sp E f) []).
Proof.
  apply failed_choice; [apply ml_rec_failed; intros [u U]; discriminate|].
  intros alt. apply failed_choice; [apply failed_map, failed_filter_nil|].
  intros alt'. apply failed_choice; [|intros; apply failed_choice_nil].
  apply failed_map, failed_then_ignore1, failed_just_nil.
Qed.

(** A comment from the second opening on never ends, one from the first does. *)
Lemma halves_both f : forall n ts, halves n ts ->
  (forall a b c, 2 * n + 1 <= f -> failed (ml_comment_rec f ((0x2F%N, a) :: (0x2A%N, b) :: (0x2F%N, c) :: ts)))
  /\ (forall a b c d e, 2 * n + 2 <= f ->
      succ (ml_comment_rec f ((0x2F%N, a) :: (0x2A%N, b) :: (0x2F%N, c) :: (0x2A%N, d) :: (0x2F%N, e) :: ts)) tt ts).
Proof.
  induction f as [|f IH]; intros n ts H; [split; intros; lia|]. split.
  - intros a b c F. rewrite ml_rec_eq.
    assert (forall k us, halves k us -> 2 * k <= f -> exists l, schain (ml_item (ml_comment_rec f)) us l []) as C.
    { clear - IH. induction 1 as [|k a b c d e us H IHk]; intros L; [exists []; constructor|].
      destruct IHk as [l C]; [lia|]. exists (tt :: l).
      eapply SChain_cons with (r1 := us); [|len_lia|exact C].
      apply succ_choice_hit. apply (proj2 (IH k us H)). lia. }
    destruct (C n ts H ltac:(lia)) as [l C'].
    eapply failed_then_ignore2.
    + eapply succ_ignore_then; [apply succ_begin_comment|]. eapply succ_ignored.
      apply succ_repeated; [|apply item_nil].
      eapply SChain_cons; [apply item_slash, ml_rec_failed; eapply halves_hd, H | len_lia |exact C'].
    + apply failed_just_str. intros [u U]. discriminate.
  - intros a b c d e F. rewrite ml_rec_eq.
    eapply succ_delimited.
    + apply succ_begin_comment.
    + eapply succ_ignored. apply succ_repeated.
      * eapply SChain_cons; [apply item_slash, (proj1 (IH n ts H)); lia|len_lia|constructor].
      * apply ml_item_end.
    + apply (succ_just_str (str "*/") [(0x2A%N, d); (0x2F%N, e)] ts). reflexivity.
Qed.

(** The steps. *)
Lemma opening_steps f a b (ts : toks) :
  repeat_steps (3 + len ts) (t_item f) None 0 None ts < ml_comment_steps (S f) ((0x2F%N, a) :: (0x2A%N, b) :: ts).
Proof.
  cbn [ml_comment_steps]. unfold t_ml_body, t_delimited.
  eapply Nat.lt_le_trans; [|apply steps_first].
  rewrite (steps_ignore_then _ _ _ tt ts) by apply succ_begin_comment.
  unfold t_ignored at 1, t_repeated, t_repeat. cbn [t_steps].
  fold (t_item f).
  match goal with |- _ < t_steps ?P ?T + _ => assert (1 <= t_steps P T) as D end.
  { unfold t_begin_comment, t_ignore_then, t_then, t_map, t_bind. cbn [t_steps].
    cbn [t_map_err t_steps t_just]. lia. }
  lia.
Qed.

Lemma first_steps f fuel k old (ts : toks) : t_steps (t_item f) ts <= repeat_steps (S fuel) (t_item f) None k old ts.
Proof. cbn [repeat_steps]. lia. Qed.

Lemma halves_loop : forall n ts, halves n ts ->
  forall f fuel k old, 2 * n <= f -> len ts < fuel ->
  match old with Some o => len ts <= o | None => True end ->
  2 ^ n <= S (repeat_steps fuel (t_item f) None k old ts).
Proof.
  induction 1 as [|n a b c d e ts H IH]; intros f fuel k old F L O; [cbn [Nat.pow]; lia|].
  cbn [List.length] in L, O. destruct fuel as [|fuel]; [lia|].
  rewrite (repeat_steps_succ _ _ _ _ _ tt ts).
  2:{ apply succ_choice_hit. apply (proj2 (halves_both f n ts H)). lia. }
  2:{ destruct old; [len_lia|exact I]. }
  assert (2 ^ n <= S (repeat_steps fuel (t_item f) None (S k) (Some (len ts)) ts)) as A by (apply IH; lia).
  assert (2 ^ n <= t_steps (t_item f) ((0x2F%N, a) :: (0x2A%N, b) :: (0x2F%N, c) :: (0x2A%N, d) :: (0x2F%N, e) :: ts)) as B.
  { eapply Nat.le_trans; [|apply item_first]. destruct f as [|[|g]]; try lia.
    eapply Nat.le_trans; [|apply Nat.lt_le_incl, opening_steps].
    eapply Nat.le_trans; [|apply first_steps].
    eapply Nat.le_trans; [|apply item_first].
    eapply Nat.le_trans; [|apply opening_steps].
    cbn [Nat.add]. rewrite (repeat_steps_succ _ _ _ _ _ tt ts).
    2:{ apply item_slash, ml_rec_failed. eapply halves_hd, H. }
    2:{ exact I. }
    specialize (IH g (S (S (len ((0x2F%N, e) :: ts)))) 1 (Some (len ts)) ltac:(lia) ltac:(len_lia) (le_n _)). lia. }
  cbn [Nat.pow]. lia.
Qed.

Lemma halves_comment n ts : halves (S n) ts -> 2 ^ n <= t_steps t_ml_comment ts.
Proof.
  intros H. inversion H as [|? a b c d e ts' H' Q1 Q2]; subst.
  unfold t_ml_comment. cbn [t_steps].
  assert (len ts' = 5 * n) as L.
  { clear - H'. induction H'; len_lia. }
  cbn [List.length].
  eapply Nat.le_trans; [|apply Nat.lt_le_incl, opening_steps].
  eapply Nat.le_trans; [|apply first_steps].
  eapply Nat.le_trans; [|apply item_first].
  eapply Nat.le_trans; [|apply opening_steps].
  cbn [Nat.add]. rewrite (repeat_steps_succ _ _ _ _ _ tt ts').
  2:{ apply item_slash, ml_rec_failed. eapply halves_hd, H'. }
  2:{ exact I. }
  match goal with |- _ <= S (_ + repeat_steps ?F (t_item ?g) None ?k ?o _) =>
    assert (Z := halves_loop n ts' H' g F k o ltac:(len_lia) ltac:(len_lia) (le_n _)) end.
  lia.
Qed.

Lemma halves_document n ts : halves (S n) ts -> 2 ^ n <= t_steps t_document ts.
Proof.
  intros H. eapply Nat.le_trans; [apply halves_comment, H|].
  inversion H as [|? a b c d e ts' H' Q1 Q2]; subst. remember (_ :: _) as ts eqn:Q. clear H'.
  eapply Nat.le_trans; [|apply steps_first].
  eapply Nat.le_trans; [|apply steps_nodes].
  eapply Nat.le_trans; [|apply steps_repeated].
  unfold t_line_space. eapply Nat.le_trans; [|apply steps_or_l].
  eapply Nat.le_trans; [|apply steps_or_r].
  - unfold t_ws, t_map_err. cbn [t_steps]. apply steps_or_r.
    rewrite ws_chars_timed, Q.
    apply failed_map, failed_repeat1; [discriminate|]. apply failed_map, failed_filter. reflexivity.
  - rewrite newline_timed, Q. apply newline_failed. simpl. unfold newline_chars. cbn [In]. lia.
Qed.

(** The texts are accepted. *)
Lemma halves_spaces n ts : halves n ts -> exists l, schain (@line_space Sp E) ts l [].
Proof.
  induction 1 as [|n a b c d e ts H [l IH]]; [exists []; constructor|]. exists (tt :: l).
  eapply SChain_cons with (r1 := ts); [|len_lia|exact IH].
  unfold line_space. apply succ_or_l. apply succ_or_r.
  { apply newline_failed. simpl. unfold newline_chars. cbn [In]. lia. }
  unfold ws. apply succ_map_err. apply succ_or_r.
  { apply failed_map, failed_repeat1; [discriminate|]. apply failed_map, failed_filter. reflexivity. }
  unfold ml_comment. apply succ_map_err_with_span. apply (proj2 (halves_both _ n ts H)).
  assert (len ts = 5 * n) as L.
  { clear - H. induction H; len_lia. }
  len_lia.
Qed.

Lemma halves_accepted n ts : halves n ts -> run (@document_ Sp E) ts = Parsed [].
Proof.
  intros H. eapply run_succ; [apply document_safe|]. unfold document_.
  eapply succ_then_ignore; [|apply succ_end]. unfold nodes.
  change (nodes_rec (S (len ts))) with (nodes_body (@nodes_rec Sp E (len ts))). unfold nodes_body.
  apply (succ_map (flat_map keep_node) _ _ []). destruct (halves_spaces n ts H) as [l C].
  eapply succ_separated; [constructor| |apply closing_fq; left; reflexivity].
  apply succ_repeated; [exact C|]. apply line_space_failed.
  repeat split; try (intros [u U]; discriminate); cbn; auto.
Qed.

End Accepted.

Lemma offset_halves n : forall off, @halves span n (offset_tokens off (repeat_text n (str "/*/*/"))).
Proof.
  induction n as [|n IH]; intros off; [constructor|].
  cbn [repeat_text str app offset_tokens]. constructor. apply IH.
Qed.

Theorem accepted_exponential n : reads (repeat_text (S n) (str "/*/*/")) []
  /\ 2 ^ n <= parse_steps (repeat_text (S n) (str "/*/*/")).
Proof.
  split; [|unfold parse_steps, span_stream; exact (halves_document n _ (offset_halves (S n) 0))].
  exists []. split; [|reflexivity].
  destruct (parse_span_eq (repeat_text (S n) (str "/*/*/"))) as [ts [eoi [S ->]]]. unfold span_stream in S.
  injection S as <- <-. exact (halves_accepted (Datatypes.S n) _ (offset_halves (Datatypes.S n) 0)).
Qed.

Theorem accepted_not_polynomial k : exists t, accepted t /\ k * (List.length t + 1) ^ k < parse_steps t.
Proof.
  pose (m := 2 * k + 7). assert (m = 2 * k + 7) as M by reflexivity. clearbody m.
  pose (n := 2 ^ m). assert (n = 2 ^ m) as N by reflexivity. clearbody n.
  assert (n <> 0) as N1 by (rewrite N; apply Nat.pow_nonzero; discriminate).
  assert (m * m < n) as N2 by (rewrite N; apply pow2_square; lia).
  assert (forall j, List.length (repeat_text j (str "/*/*/")) = 5 * j) as L.
  { induction j as [|j IH]; [reflexivity|]. cbn [repeat_text]. rewrite app_length, IH. simpl. lia. }
  exists (repeat_text n (str "/*/*/")). rewrite L.
  destruct n as [|n]; [contradiction|]. clear N1 L.
  destruct (accepted_exponential n) as [[D [R _]] S]. split; [eexists; exact R|].
  eapply Nat.lt_le_trans; [|exact S]. clear R S.
  apply Nat.le_lt_trans with (2 ^ k * (2 ^ (m + 3)) ^ k).
  - apply Nat.mul_le_mono.
    + apply Nat.lt_le_incl, Nat.pow_gt_lin_r. lia.
    + apply Nat.pow_le_mono_l. rewrite Nat.pow_add_r, <- N. change (2 ^ 3) with 8. lia.
  - rewrite <- Nat.pow_mul_r, <- Nat.pow_add_r. apply Nat.pow_lt_mono_r; [lia|].
    rewrite M in *. nia.
Qed.
