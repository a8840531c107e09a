(** The steps of the parser of block comments: twice as many only with openings that are
    not closed. *)

From Coq Require Import NArith PeanoNat List Bool String Lia.
From Verif Require Import Chars Ast Errors Chumsky Spans Grammar Safe GrammarSafe Near GrammarNear
  Kdl Good LexSpace DocSafe Meaning SpanProps Steps StepsProps StepsBound StepsNodes StepsComment StepsTotal StepsClosedSpec.
Import ListNotations.
Local Open Scope nat_scope.
Local Open Scope list_scope.

(** ** What is closed is a comment *)

Fixpoint rests (d : nat) (t : text) : Prop :=
  match d with
  | O => t = []
  | S d => exists a b, t = a ++ b /\ block_rest true a /\ rests d b
  end.

Lemma rest_hd st t : block_rest st t -> t <> [].
Proof. intros H. apply block_rest_end in H as [u ->]. destruct u; discriminate. Qed.

Lemma closes_eq d t : closes d t =
  match d with
  | O => true
  | S d' =>
      match t with
      | [] => false
      | c :: t1 =>
          match t1 with
          | [] => false
          | e :: t2 =>
              if ((c =? 0x2F) && (e =? 0x2A))%N then closes (S d) t2
              else if ((c =? 0x2A) && (e =? 0x2F))%N then closes d' t2
              else closes d t1
          end
      end
  end.
Proof. destruct d, t; reflexivity. Qed.

Lemma closes_rests n : forall t d, List.length t <= n -> closes d t = true ->
  exists c r, t = c ++ r /\ rests d c.
Proof.
  induction n as [|n IH]; intros t d L H; rewrite closes_eq in H; (destruct d as [|d];
    [exists [], t; split; reflexivity|]); (destruct t as [|c t1]; [discriminate|]).
  { cbn in L. lia. }
  destruct t1 as [|e t2]; [discriminate|]. cbn [List.length] in L.
  destruct ((c =? 0x2F) && (e =? 0x2A))%N eqn:O.
  - apply andb_true_iff in O. rewrite !N.eqb_eq in O. destruct O as [-> ->].
    destruct (IH t2 (S (S d)) ltac:(lia) H) as [x [r [-> (a & b & -> & A & a' & b' & -> & A' & B')]]].
    exists (str "/*" ++ a ++ a' ++ b'), r. split; [rewrite <- !app_assoc; reflexivity|].
    exists ((str "/*" ++ a) ++ a'), b'. split; [rewrite <- !app_assoc; reflexivity|].
    split; [|exact B']. apply BR_nested; [constructor; exact A|exact A'].
  - destruct ((c =? 0x2A) && (e =? 0x2F))%N eqn:Q.
    + apply andb_true_iff in Q. rewrite !N.eqb_eq in Q. destruct Q as [-> ->].
      destruct (IH t2 d ltac:(lia) H) as [x [r [-> B]]].
      exists (str "*/" ++ x), r. split; [reflexivity|]. exists (str "*/"), x.
      split; [reflexivity|]. split; [constructor|exact B].
    + destruct (IH (e :: t2) (S d) ltac:(cbn; lia) H) as [x [r [X (a & b & -> & A & B)]]].
      exists (c :: a ++ b), r. split; [rewrite X; reflexivity|]. exists (c :: a), b.
      split; [reflexivity|]. split; [|exact B].
      destruct a as [|e' a]; [apply rest_hd in A; contradiction|]. injection X as <- X.
      destruct (N.eq_dec c 0x2A) as [->|N].
      * apply BR_star; [exact A|]. cbn. intros Y. injection Y as ->. discriminate Q.
      * apply BR_char; [exact A|exact N|]. intros _ ->. cbn. intros Y. injection Y as ->. discriminate O.
Qed.

Lemma closes_block t : closes 1 t = true -> exists c r, str "/*" ++ t = c ++ r /\ block true c.
Proof.
  intros H. destruct (closes_rests _ t 1 (le_n _) H) as [x [r [-> (a & b & -> & A & B)]]].
  cbn in B. subst b. exists (str "/*" ++ a), r. rewrite app_nil_r. split; [reflexivity|]. constructor. exact A.
Qed.

Section Closed.
Context {Sp : Type} {E : env Sp}.

Notation parser := (parser Sp).
Notation timed := (timed Sp).
Notation toks := (toks Sp).
Notation len := (@List.length (tok Sp)).

(** A comment that is closed is read. *)
Lemma closed_read f a b (ts : toks) : closes 1 (chars ts) = true -> len ts + 2 <= f ->
  exists rest, succ (@ml_comment_rec Sp E f ((0x2F%N, a) :: (0x2A%N, b) :: ts)) tt rest.
Proof.
  intros H F. apply closes_block in H. destruct H as [c [r [X B]]].
  change (str "/*" ++ chars ts) with (chars (((0x2F%N, a) : tok Sp) :: ((0x2A%N, b) : tok Sp) :: ts)) in X.
  apply chars_split in X as Y. destruct Y as [u1 [u2 [Y [H1 H2]]]]. exists u2.
  assert (Z := f_equal (@List.length _) Y). rewrite app_length in Z. cbn [List.length] in Z.
  assert (G := proj1 ml_complete_both c B f u1 u2 H1). rewrite <- Y in G. apply G.
  rewrite <- H1, chars_len. unfold Chumsky.toks, tok, Chars.char in *. lia.
Qed.

Lemma unclosed_cons c t : unclosed t <= unclosed (c :: t) <= S (unclosed t).
Proof.
  cbn [unclosed]. destruct t as [|e t]; [cbn; lia|].
  destruct (_ && _ && _)%bool; lia.
Qed.

Lemma unclosed_open t : closes 1 t = false ->
  unclosed (0x2F%N :: 0x2A%N :: t) = S (unclosed (0x2A%N :: t)).
Proof. intros C. cbn [unclosed]. rewrite C. reflexivity. Qed.

Lemma unclosed_suffix (a b : toks) : suffix a b -> unclosed (chars a) <= unclosed (chars b).
Proof.
  intros [p ->]. induction p as [|[c s] p IH]; [apply le_n|].
  cbn [app chars map fst]. fold (chars (p ++ a)).
  pose proof (unclosed_cons c (chars (p ++ a))). lia.
Qed.

Definition lid (ts : toks) : nat := 8 * (len ts + 1) * 2 ^ unclosed (chars ts).

Lemma pow_pos n : 1 <= 2 ^ n.
Proof. apply Nat.neq_0_lt_0, Nat.pow_nonzero. lia. Qed.

Lemma lid_pos ts : 8 <= lid ts.
Proof. unfold lid. pose proof (pow_pos (unclosed (chars ts))). nia. Qed.

Lemma lid_less k a b : suffix a b -> len a + k <= len b -> lid a + 8 * k <= lid b.
Proof.
  intros H L. unfold lid. apply unclosed_suffix in H.
  apply (Nat.pow_le_mono_r 2) in H; [|lia]. pose proof (pow_pos (unclosed (chars a))). nia.
Qed.

Lemma lid_suffix a b : suffix a b -> lid a <= lid b.
Proof. intros H. pose proof (lid_less 0 a b H). apply suffix_len in H. lia. Qed.

Lemma lid_open_any (a b c : toks) : unclosed (chars c) = S (unclosed (chars b)) -> suffix a b ->
  len c = S (len b) -> lid a + lid b + 8 <= lid c.
Proof.
  intros U H L. unfold lid. rewrite U, L. apply suffix_len in H as Z. apply unclosed_suffix in H.
  apply (Nat.pow_le_mono_r 2) in H; [|lia].
  rewrite Nat.pow_succ_r'. pose proof (pow_pos (unclosed (chars a))). nia.
Qed.

Lemma lid_open a b (ts : toks) : closes 1 (chars ts) = false ->
  lid ts + lid ((0x2A%N, b) :: ts) + 8 <= lid ((0x2F%N, a) :: (0x2A%N, b) :: ts).
Proof.
  intros C. apply lid_open_any; [exact (unclosed_open (chars ts) C)|apply suffix_cons'|reflexivity].
Qed.

(** What one level of comments takes: what it reads is paid for by what is left over. *)
Definition paid (f : nat) (s : toks -> nat) : Prop :=
  forall ts, len ts <= f ->
    if sl 0x2A%N ts then
      match r_out (@ml_comment_rec Sp E f ts) with
      | Ok _ rest _ => s ts + lid rest <= lid (skipn 2 ts)
      | Err _ => s ts <= 1 + lid (skipn 2 ts)
      end
    else s ts <= 2.

Lemma just_str_len x : forall (ts : toks) u rest al, r_out (p_just_str x ts) = Ok u rest al ->
  len rest + List.length x <= len ts.
Proof.
  induction x as [|c x IH]; intros ts u rest al H; cbn [p_just_str] in H.
  - assert (rest = ts) as -> by (cbn [r_out] in H; congruence). cbn [List.length]. lia.
  - destruct ts as [|[d s] ts]; [discriminate|]. destruct (d =? c)%N; [|discriminate].
    apply IH in H. cbn [List.length]. unfold Chumsky.toks, tok, Chars.char in *. lia.
Qed.

Lemma item_paid f ts : paid f (ml_comment_steps f) -> len ts <= f ->
  match r_out (t_parser (t_item f) ts) with
  | Ok _ rest _ => t_steps (t_item f) ts + lid rest <= lid ts /\ suffix rest ts
  | Err _ => t_steps (t_item f) ts <= 5
  end.
Proof.
  intros P F. specialize (P ts F).
  assert (forall ts, t_steps (@t_ignored Sp _ (t_none_of 0x2A%N)) ts <= 1) as A1 by reflexivity.
  assert (forall ts, t_steps (@t_ignored Sp _ (t_then_ignore (t_just 0x2A%N) (t_rewind (t_none_of 0x2F%N)))) ts <= 2) as A2.
  { clear. intros ts. unfold t_ignored. cbn [t_steps]. rewrite steps_then_ignore, steps_then.
    unfold t_just, t_rewind, t_none_of, t_filter. cbn [t_steps t_parser].
    match goal with |- context [match ?x with _ => _ end] => destruct x end; lia. }
  specialize (A1 ts). specialize (A2 ts).
  destruct (r_out (@ml_comment_rec Sp E f ts)) as [u rest alt|e] eqn:R.
  - apply rec_ok in R as Y. destruct Y as [Y X]. rewrite Y in P.
    assert (r_out (t_parser (t_item f) ts) = Ok u rest alt) as ->.
    { unfold t_item, t_choice. cbn [t_parser map]. unfold p_choice. cbn [p_choice_from]. rewrite R. exact R. }
    assert (t_steps (t_item f) ts = ml_comment_steps f ts) as ->.
    { unfold t_item, t_choice. cbn [t_steps choice_steps t_parser]. rewrite R. lia. }
    apply openers_sl in Y. destruct Y as [a [b [ts' [-> _]]]]. cbn [skipn] in X, P.
    assert (suffix ts' ((0x2F%N, a) :: (0x2A%N, b) :: ts')) as Z by (exists [(0x2F%N, a); (0x2A%N, b)]; reflexivity).
    split; [|eapply suffix_trans; eauto]. apply lid_suffix in Z. lia.
  - assert (t_steps (t_item f) ts <= ml_comment_steps f ts + 3) as Q.
    { unfold t_item, t_choice. cbn [t_steps choice_steps t_parser]. rewrite R.
      repeat match goal with |- context [match r_out ?x with _ => _ end] => destruct (r_out x) end; lia. }
    destruct (sl 0x2A%N ts) eqn:Y.
    + apply openers_sl in Y. destruct Y as [a [b [ts' [-> _]]]]. cbn [skipn] in P.
      assert (succ (t_parser (t_item f) ((0x2F%N, a) :: (0x2A%N, b) :: ts')) tt ((0x2A%N, b) :: ts')) as [_ [alt ->]].
      { unfold t_item, t_choice. cbn [t_parser map]. unfold p_choice. apply succ_choice_miss; [exists e; exact R|].
        intros alt. apply succ_choice_hit. eapply succ_ignored, succ_filter. reflexivity. }
      split; [|apply suffix_cons'].
      destruct (closes 1 (chars ts')) eqn:C.
      { destruct (closed_read f a b ts' C) as [rest [_ [al S]]].
        { cbn [List.length] in F. unfold Chumsky.toks, tok, Chars.char in *. lia. }
        exfalso. rewrite R in S. discriminate S. }
      pose proof (lid_open a b ts' C). lia.
    + destruct (r_out (t_parser (t_item f) ts)) as [u rest alt|e'] eqn:I; [|lia].
      apply item_ok in I. destruct I as [[x ->]|[Z _]]; [|congruence].
      split; [|apply suffix_cons'].
      pose proof (lid_less 1 rest (x :: rest) (suffix_cons' _ _)) as G. cbn [List.length] in G.
      specialize (G ltac:(unfold Chumsky.toks, tok, Chars.char in *; lia)). lia.
Qed.

Lemma loop_paid f : paid f (ml_comment_steps f) ->
  forall fuel n errs outs alt old cr ts, len ts <= f ->
  exists l rest al,
    r_out (repeat_loop fuel (t_parser (t_item f)) 0 None errs outs alt old cr ts) = Ok l rest al
    /\ repeat_steps fuel (t_item f) None n old ts + lid rest <= lid ts + 5.
Proof.
  intros P. induction fuel as [|fuel IH]; intros n errs outs alt old cr ts F; cbn [repeat_steps repeat_loop].
  { do 3 eexists. split; [reflexivity|]. lia. }
  assert (Q := item_paid f ts P F).
  destruct (r_out (t_parser (t_item f) ts)) as [u rest al|e] eqn:I.
  - destruct Q as [Q S]. destruct (merge_alts alt al) as [alt' c].
    destruct (match old with Some o => o =? len rest | None => false end).
    + do 3 eexists. split; [reflexivity|]. lia.
    + apply suffix_len in S.
      destruct (IH (Datatypes.S n) (errs ++ r_errs (t_parser (t_item f) ts)) (u :: outs) alt' (Some (len rest))
        (cr ++ r_crash (t_parser (t_item f) ts) ++ c) rest) as [l [r [al' [R B]]]]; [lia|].
      exists l, r, al'. split; [exact R|]. lia.
  - cbn [Nat.ltb Nat.leb]. destruct (merge_alts alt (Some e)) as [alt' c].
    do 3 eexists. split; [reflexivity|]. lia.
Qed.

Lemma level_paid f : paid f (ml_comment_steps f).
Proof.
  induction f as [|f IH]; intros ts F.
  { destruct ts as [|? ?]; [cbn; lia|cbn [List.length] in F; lia]. }
  assert (V := level_all (S f) ts). revert V.
  rewrite ml_body_steps. pose proof (begin_cost 0x2A%N ts) as B. rewrite begin_timed.
  assert (match r_out (t_parser (t_ignore_then (t_begin_comment 0x2A%N)
                               (t_ignored (t_repeated (t_item f)))) ts) with
      | Ok _ r _ => just_str_steps (str "*/") r
      | Err _ => 0
      end <= 2) as B2.
  { destruct (r_out _) as [a r al|e]; [|lia].
    eapply Nat.le_trans; [apply just_str_bound|]. apply le_n. }
  destruct (sl 0x2A%N ts) eqn:Y.
  - intros _. rewrite (begin_comment_yes _ _ Y). cbn [r_out].
    assert (len (skipn 2 ts) <= f) as F2.
    { apply openers_sl in Y. destruct Y as [a [b [ts' [-> _]]]]. cbn [skipn List.length] in *.
      unfold Chumsky.toks, tok, Chars.char in *. lia. }
    destruct (loop_paid f IH (3 + len (skipn 2 ts)) 0 [] [] None None [] (skipn 2 ts) F2) as [l [r1 [al [R L]]]].
    destruct (r_out (@ml_comment_rec Sp E (S f) ts)) as [u rest alt|e] eqn:O;
      [|pose proof (lid_pos r1); lia].
    rewrite ml_rec_eq in O. unfold p_delimited in O.
    apply map_ok in O. destruct O as [x O].
    apply then_ok in O. destruct O as [a1 [a2 [r3 [al1 [al2 [R1 R2]]]]]].
    apply map_ok in R1. destruct R1 as [y R1].
    apply then_ok in R1. destruct R1 as [b1 [b2 [r2 [al3 [al4 [R3 R4]]]]]].
    rewrite (begin_comment_yes _ _ Y) in R3. cbn [r_out] in R3.
    assert (r2 = skipn 2 ts) as -> by congruence. clear R3.
    apply map_ok in R4. destruct R4 as [z R4].
    assert (r3 = r1) as ->.
    { assert (r_out (p_repeated (ml_item (@ml_comment_rec Sp E f)) (skipn 2 ts)) = Ok l r1 al) as W by exact R.
      rewrite W in R4. congruence. }
    assert (suffix rest r1 /\ len rest + 2 <= len r1) as [S1 S2].
    { split; [eapply shrinks_just_str, R2|]. exact (just_str_len (str "*/") _ _ _ _ R2). }
    pose proof (lid_less 2 rest r1 S1 S2). lia.
  - intros V. exact V.
Qed.

(** ** The whole parser *)

Lemma closed_at_most (W : toks) : at_most t_ml_comment W (4 + lid W).
Proof.
  intros ts S. unfold t_ml_comment. cbn [t_steps].
  assert (P := level_paid (Datatypes.S (len ts)) ts (Nat.le_succ_diag_r _)).
  destruct (sl 0x2A%N ts) eqn:Y; [|lia].
  apply openers_sl in Y. destruct Y as [a [b [ts' [-> _]]]]. cbn [skipn] in P.
  apply suffix_tail, suffix_tail in S. apply lid_suffix in S.
  destruct (r_out _); lia.
Qed.

End Closed.

Lemma document_closed {Sp : Type} : exists K k, forall (E : env Sp) (ts : toks Sp),
  t_steps (@t_document Sp E) ts <= K * (List.length ts + 3) ^ k * 2 ^ unclosed (chars ts).
Proof.
  destruct (@parts_bound Sp) as [K [k [HK H]]].
  exists (20 * K * 13 + 1), (k + 2). intros E ts.
  pose proof (H E ts _ (closed_at_most ts)) as HB.
  set (P := K * poly ts k (4 + lid ts)) in *.
  assert (1 <= P) as HP by (subst P; pose proof (poly_pos ts k (4 + lid ts)); nia).
  destruct (nodes_paid ts P (S (List.length ts)) HP HB ts (suffix_refl _) (Nat.lt_succ_diag_r _))
    as [x [rest [alt [R Q]]]].
  assert (t_steps (@t_document Sp E) ts <= 20 * P * (List.length ts + 1) + 1) as B.
  { unfold t_document. rewrite steps_then_ignore, steps_then.
    assert (@t_steps Sp (document Sp) (@t_nodes Sp E) ts = nodes_steps (S (List.length ts)) ts) as ->
      by (unfold t_nodes; rewrite steps_timed; reflexivity).
    assert (nodes_steps (S (List.length ts)) ts <= 20 * P * (List.length ts + 1)) as B.
    { destruct Q as [Q|[_ Q]]; [|exact Q]. eapply Nat.le_trans; [exact Q|].
      apply Nat.mul_le_mono_l. lia. }
    assert (forall r : toks Sp, t_steps (@t_end Sp E) r = 1) as T by reflexivity.
    destruct (r_out (@t_parser Sp (document Sp) t_nodes ts)) as [y r al|e]; [rewrite T|]; lia. }
  eapply Nat.le_trans; [exact B|]. subst P. unfold poly, lid.
  assert (1 <= 2 ^ unclosed (chars ts)) by (apply Nat.neq_0_lt_0, Nat.pow_nonzero; lia).
  assert (1 <= (List.length ts + 3) ^ k) by (apply Nat.neq_0_lt_0, Nat.pow_nonzero; lia).
  rewrite Nat.pow_add_r. replace ((List.length ts + 3) ^ 2) with ((List.length ts + 3) * (List.length ts + 3))
    by (cbn [Nat.pow]; lia).
  assert (4 + 8 * (List.length ts + 1) * 2 ^ unclosed (chars ts) + 1
          <= 13 * ((List.length ts + 3) * 2 ^ unclosed (chars ts))) as B2 by nia.
  clear - HK B2 H0 H1.
  set (n := List.length ts) in *. set (c := 2 ^ unclosed (chars ts)) in *. set (p := (n + 3) ^ k) in *.
  clearbody n c p.
  set (m := 4 + 8 * (n + 1) * c + 1) in *. clearbody m.
  assert (20 * (K * (p * m)) * (n + 1) <= 20 * (K * (p * (13 * ((n + 3) * c)))) * (n + 3)) as B3.
  { apply Nat.mul_le_mono; [|lia]. repeat apply Nat.mul_le_mono_l. exact B2. }
  replace ((20 * K * 13 + 1) * (p * ((n + 3) * (n + 3))) * c)
    with (20 * (K * (p * (13 * ((n + 3) * c)))) * (n + 3) + p * ((n + 3) * (n + 3)) * c) by lia.
  assert (1 <= p * ((n + 3) * (n + 3)) * c) by nia. lia.
Qed.

Theorem steps_unclosed : exists K k, forall t,
  parse_steps t <= K * (List.length t + 3) ^ k * 2 ^ unclosed t.
Proof.
  destruct (@document_closed span) as [K [k H]]. exists K, k. intros t.
  unfold parse_steps, span_stream.
  match goal with |- t_steps (@t_document span ?E) ?ts <= _ => specialize (H E ts) end.
  rewrite offset_chars, offset_length in H. exact H.
Qed.

Theorem steps_closed : exists K k, forall t, unclosed t = 0 ->
  parse_steps t <= K * (List.length t + 3) ^ k.
Proof.
  destruct steps_unclosed as [K [k H]]. exists K, k. intros t U. specialize (H t). rewrite U in H.
  cbn [Nat.pow] in H. lia.
Qed.

Lemma unclosed_openers t : unclosed t <= openers t.
Proof.
  induction t as [|c t IH]; [apply le_n|]. destruct t as [|e t].
  - cbn [unclosed]. lia.
  - assert (X := openers_cons c (e :: t)). remember (e :: t) as t1 eqn:T. cbn [unclosed]. rewrite T at 1.
    destruct ((c =? 0x2F) && (e =? 0x2A) && negb (closes 1 t))%N eqn:O; [|lia].
    apply andb_true_iff in O. destruct O as [O _]. apply andb_true_iff in O. rewrite !N.eqb_eq in O.
    destruct O as [-> ->]. subst t1. exact (le_n_S _ _ IH).
Qed.

Theorem steps_few_unclosed m : exists K k, forall t, unclosed t <= m ->
  parse_steps t <= K * (List.length t + 3) ^ k.
Proof.
  destruct steps_unclosed as [K [k H]]. exists (K * 2 ^ m), k. intros t O.
  eapply Nat.le_trans; [apply H|].
  apply (Nat.pow_le_mono_r 2) in O; [|lia].
  replace (K * 2 ^ m * (List.length t + 3) ^ k) with (K * (List.length t + 3) ^ k * 2 ^ m) by lia.
  apply Nat.mul_le_mono_l, O.
Qed.

(** ** What is not counted are comments *)

Lemma block_closes :
  (forall s, block true s -> forall d r, closes (S d) (s ++ r) = closes (S d) r) /\
  (forall t, block_rest true t -> forall d r, closes (S d) (t ++ r) = closes d r).
Proof.
  apply block_both.
  - intros t _ IH d r. cbn [str app]. rewrite closes_eq. cbn. apply IH.
  - intros d r. cbn [str app]. rewrite closes_eq. cbn. reflexivity.
  - intros s t _ IHs _ IHt d r. rewrite <- app_assoc, IHs. apply IHt.
  - intros c t R IH N S d r. cbn [app]. rewrite closes_eq.
    destruct t as [|e t]; [apply rest_hd in R; contradiction|]. cbn [app].
    destruct ((c =? 0x2F) && (e =? 0x2A))%N eqn:O.
    { apply andb_true_iff in O. rewrite !N.eqb_eq in O. destruct O as [-> ->].
      exfalso. apply S; reflexivity. }
    destruct ((c =? 0x2A) && (e =? 0x2F))%N eqn:Q.
    { apply andb_true_iff in Q. rewrite !N.eqb_eq in Q. tauto. }
    apply (IH d r).
  - intros t R IH S d r. cbn [app]. rewrite closes_eq.
    destruct t as [|e t]; [apply rest_hd in R; contradiction|]. cbn [app].
    destruct ((0x2A =? 0x2F) && (e =? 0x2A))%N eqn:O; [discriminate O|].
    destruct ((0x2A =? 0x2A) && (e =? 0x2F))%N eqn:Q.
    { apply andb_true_iff in Q. rewrite !N.eqb_eq in Q. destruct Q as [_ ->].
      exfalso. apply S; reflexivity. }
    apply (IH d r).
Qed.

Lemma closes_iff t : closes 1 t = true <-> exists c r, str "/*" ++ t = c ++ r /\ block true c.
Proof.
  split; [apply closes_block|]. intros [c [r [X B]]]. destruct B as [b B]. rewrite <- app_assoc in X.
  apply app_inv_head in X. subst t. rewrite (proj2 block_closes b B). rewrite closes_eq. reflexivity.
Qed.

Theorem unclosed_zero t : unclosed t = 0 <->
  (forall u w, t = u ++ str "/*" ++ w -> exists b r, block true b /\ str "/*" ++ w = b ++ r).
Proof.
  induction t as [|c t IH].
  { split; [|reflexivity]. intros _ u w H. destruct u; discriminate. }
  split.
  - intros Z u w H. destruct u as [|x u].
    + cbn [app str] in H. injection H as -> ->. cbn [unclosed] in Z. cbn in Z.
      destruct (closes 1 w) eqn:C; [|discriminate]. apply closes_iff in C.
      destruct C as [b [r [X B]]]. exists b, r. split; assumption.
    + injection H as -> H. apply (proj1 IH) in H; [exact H|].
      pose proof (unclosed_cons x t). lia.
  - intros H.
    assert (unclosed t = 0) as Z.
    { apply IH. intros u w X. apply (H (c :: u) w). rewrite X. reflexivity. }
    cbn [unclosed]. destruct t as [|e t]; [reflexivity|].
    destruct ((c =? 0x2F) && (e =? 0x2A) && negb (closes 1 t))%N eqn:O; [|exact Z].
    apply andb_true_iff in O. destruct O as [O N]. apply andb_true_iff in O. rewrite !N.eqb_eq in O.
    destruct O as [-> ->]. apply negb_true_iff in N.
    destruct (H [] t eq_refl) as [b [r [B X]]].
    assert (closes 1 t = true) as Y by (apply closes_iff; exists b, r; split; assumption).
    congruence.
Qed.
