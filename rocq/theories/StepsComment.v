(** The steps of the parser of block comments: at most twice as many with each
    opening of a comment in the text. *)

From Coq Require Import NArith PeanoNat List Bool String Lia.
From Verif Require Import Chars Ast Errors Chumsky Spans Grammar Safe GrammarSafe Near GrammarNear
  Kdl Good LexSpace Steps StepsProps StepsBound StepsNodes.
Import ListNotations.
Local Open Scope nat_scope.
Local Open Scope list_scope.

(** How often [/*] occurs in a text. *)
Fixpoint openers (t : text) : nat :=
  match t with
  | [] => 0
  | c :: t' =>
      match c, t' with
      | 0x2F%N, 0x2A%N :: _ => S (openers t')
      | _, _ => openers t'
      end
  end.

Section Comment.
Context {Sp : Type} {E : env Sp}.

Notation parser := (parser Sp).
Notation timed := (timed Sp).
Notation toks := (toks Sp).
Notation len := (@List.length (tok Sp)).

Lemma openers_cons c t : openers t <= openers (c :: t) <= S (openers t).
Proof.
  cbn [openers].
  repeat match goal with |- context [match ?x with _ => _ end] => destruct x end; lia.
Qed.

Lemma openers_suffix (a b : toks) : suffix a b -> openers (chars a) <= openers (chars b).
Proof.
  intros [p ->]. induction p as [|[c s] p IH]; [apply le_n|].
  cbn [app chars map fst]. fold (chars (p ++ a)).
  pose proof (openers_cons c (chars (p ++ a))). lia.
Qed.

Lemma openers_sl (ts : toks) : sl 0x2A%N ts = true -> exists a b ts',
  ts = (0x2F%N, a) :: (0x2A%N, b) :: ts' /\ openers (chars ts) = S (openers (chars ts'))
  /\ openers (chars ((0x2A%N, b) :: ts')) = openers (chars ts').
Proof.
  destruct ts as [|[c a] [|[d b] ts']]; try discriminate. cbn [sl fst].
  rewrite andb_true_iff, !N.eqb_eq. intros [-> ->]. exists a, b, ts'. repeat split.
Qed.

(** The bound. *)
Definition cap (ts : toks) : nat := 8 * (len ts + 1) * 2 ^ openers (chars ts).

Lemma cap_suffix a b : suffix a b -> cap a <= cap b.
Proof.
  intros H. unfold cap. apply Nat.mul_le_mono.
  - apply suffix_len in H. lia.
  - apply Nat.pow_le_mono_r; [lia|]. apply openers_suffix, H.
Qed.

Lemma cap_lt a b : suffix a b -> len a < len b -> cap a + 8 <= cap b.
Proof.
  intros H L. unfold cap. apply openers_suffix in H.
  apply (Nat.pow_le_mono_r 2) in H; [|lia].
  assert (1 <= 2 ^ openers (chars a)) by (apply Nat.neq_0_lt_0, Nat.pow_nonzero; lia).
  nia.
Qed.

Lemma suffix_cons' x (ts : toks) : suffix ts (x :: ts).
Proof. exists [x]. reflexivity. Qed.

(** What one level of comments takes, given what a deeper one does. *)
Definition level (s : toks -> nat) : Prop :=
  forall ts, s ts <= if sl 0x2A%N ts then 4 + cap (skipn 2 ts) else 2.

Lemma rec_ok f ts u rest alt : r_out (@ml_comment_rec Sp E f ts) = Ok u rest alt ->
  sl 0x2A%N ts = true /\ suffix rest (skipn 2 ts).
Proof.
  destruct f as [|f]; [discriminate|]. rewrite ml_rec_eq. unfold p_delimited.
  intros R. apply map_ok in R. destruct R as [x R].
  apply then_ok in R. destruct R as [a1 [a2 [r1 [al1 [al2 [R1 R2]]]]]].
  apply map_ok in R1. destruct R1 as [y R1].
  apply then_ok in R1. destruct R1 as [b1 [b2 [r2 [al3 [al4 [R3 R4]]]]]].
  apply begin_comment_ok in R3 as Y. split; [exact Y|].
  rewrite (begin_comment_yes _ _ Y) in R3. cbn [r_out] in R3.
  assert (r2 = skipn 2 ts) as -> by congruence. clear R3.
  eapply suffix_trans; [eapply shrinks_just_str, R2|].
  assert (shrinks (p_ignored (p_repeated (ml_item (@ml_comment_rec Sp E f))))) as G;
    [|eapply G, R4].
  apply shrinks_ignored, shrinks_repeated. unfold ml_item. apply shrinks_choice.
  repeat constructor; [apply shrinks_ml_rec| |].
  - apply shrinks_ignored, shrinks_none_of.
  - apply shrinks_ignored, shrinks_then_ignore; [apply shrinks_just|].
    apply shrinks_rewind.
Qed.

Lemma item_ok f ts u rest alt : r_out (t_parser (t_item f) ts) = Ok u rest alt ->
  (exists x, ts = x :: rest)
  \/ (sl 0x2A%N ts = true /\ suffix rest (skipn 2 ts)).
Proof.
  unfold t_item, t_choice. cbn [t_parser map].
  intros R. unfold p_choice in R. apply choice_from_ok in R. destruct R as [p [I [R _]]].
  cbn [In] in I. destruct I as [<-|[<-|[<-|[]]]].
  - right. eapply rec_ok, R.
  - left. apply map_ok in R. destruct R as [x R]. unfold t_none_of, t_filter in R.
    cbn [t_parser] in R. unfold p_none_of, p_filter in R.
    destruct ts as [|[c s] ts]; [discriminate|]. destruct (negb _); [|discriminate].
    cbn [r_out] in R. inversion R; subst. eexists. reflexivity.
  - left. apply map_ok in R. destruct R as [x R]. rewrite then_ignore_parser in R.
    apply map_ok in R. destruct R as [y R].
    apply then_ok in R. destruct R as [a1 [a2 [r1 [al1 [al2 [R1 R2]]]]]].
    apply just_ok in R1. destruct R1 as [s ->].
    unfold t_rewind in R2. cbn [t_parser] in R2. unfold p_rewind in R2. cbn [r_out] in R2.
    destruct (r_out _) in R2; [|discriminate]. inversion R2; subst. eexists. reflexivity.
Qed.

Lemma item_cost f ts : level (ml_comment_steps f) ->
  t_steps (t_item f) ts <= (if sl 0x2A%N ts then 7 + cap (skipn 2 ts) else 5)
  /\ (forall u rest alt, r_out (ml_comment_rec f ts) = Ok u rest alt ->
      t_steps (t_item f) ts <= 4 + cap (skipn 2 ts)).
Proof.
  intros L. specialize (L ts). unfold t_item, t_choice. cbn [t_steps choice_steps t_parser].
  assert (forall ts, t_steps (@t_ignored Sp _ (t_none_of 0x2A%N)) ts <= 1) as A1 by reflexivity.
  assert (forall ts, t_steps (@t_ignored Sp _ (t_then_ignore (t_just 0x2A%N) (t_rewind (t_none_of 0x2F%N)))) ts <= 2) as A2.
  { intros ts'. unfold t_ignored. cbn [t_steps]. rewrite steps_then_ignore, steps_then.
    unfold t_just, t_rewind, t_none_of, t_filter. cbn [t_steps t_parser].
    destruct (r_out _); lia. }
  specialize (A1 ts). specialize (A2 ts). split.
  - destruct (r_out (ml_comment_rec f ts)); [destruct (sl 0x2A%N ts); lia|].
    repeat match goal with |- context [match r_out ?x with _ => _ end] => destruct (r_out x) end;
      destruct (sl 0x2A%N ts); lia.
  - intros u rest alt R. rewrite R. apply rec_ok in R as [Y _]. rewrite Y in L. lia.
Qed.

Lemma cap_open a b (ts : toks) :
  let W := (0x2F%N, a) :: (0x2A%N, b) :: ts in
  2 * cap ts + 8 <= cap W /\ cap ts + cap ((0x2A%N, b) :: ts) + 8 <= cap W.
Proof.
  intros W. unfold cap.
  assert (openers (chars W) = S (openers (chars ts))) as -> by reflexivity.
  assert (openers (chars ((0x2A%N, b) :: ts)) = openers (chars ts)) as -> by reflexivity.
  subst W. cbn [List.length].
  assert (1 <= 2 ^ openers (chars ts)) by (apply Nat.neq_0_lt_0, Nat.pow_nonzero; lia).
  rewrite Nat.pow_succ_r'. generalize dependent (2 ^ openers (chars ts)). intros n H.
  split; nia.
Qed.

Lemma cap_pos (ts : toks) : 8 <= cap ts.
Proof.
  unfold cap.
  assert (1 <= 2 ^ openers (chars ts)) by (apply Nat.neq_0_lt_0, Nat.pow_nonzero; lia). nia.
Qed.

Ltac alias := unfold Chumsky.toks, tok, Chars.char in *; lia.

Lemma loop_cost f : level (ml_comment_steps f) ->
  forall fuel n old ts, repeat_steps fuel (t_item f) None n old ts <= cap ts.
Proof.
  intros L. induction fuel as [|fuel IH]; intros n old ts; cbn [repeat_steps]; [lia|].
  destruct (item_cost f ts L) as [C1 C2].
  assert (match r_out (t_parser (t_item f) ts) with
    | Ok _ rest _ =>
        if match old with Some o => o =? len rest | None => false end then 0
        else repeat_steps fuel (t_item f) None (S n) (Some (len rest)) rest
    | Err _ => 0
    end <= match r_out (t_parser (t_item f) ts) with Ok _ rest _ => cap rest | Err _ => 0 end) as B.
  { destruct (r_out (t_parser (t_item f) ts)) as [u rest alt|e]; [|lia].
    destruct (match old with Some o => o =? len rest | None => false end); [lia|apply IH]. }
  destruct (r_out (t_parser (t_item f) ts)) as [u rest alt|e] eqn:R.
  - apply item_ok in R. destruct R as [[x ->]|[Y X]].
    + destruct (sl 0x2A%N (x :: rest)) eqn:Y.
      * apply openers_sl in Y. destruct Y as [a [b [ts' [Q _]]]]. 
        assert (x = (0x2F%N, a)) as -> by congruence.
        assert (rest = (0x2A%N, b) :: ts') as -> by congruence. clear Q.
        cbn [skipn] in C1. pose proof (cap_open a b ts') as [_ C]. alias.
      * pose proof (cap_lt rest (x :: rest) (suffix_cons' _ _)) as C. cbn [List.length] in C.
        specialize (C ltac:(lia)). alias.
    + rewrite Y in C1. apply openers_sl in Y. destruct Y as [a [b [ts' [-> _]]]].
      cbn [skipn] in X, C1. apply cap_suffix in X. pose proof (cap_open a b ts') as [C _]. alias.
  - destruct (sl 0x2A%N ts) eqn:Y.
    + apply openers_sl in Y. destruct Y as [a [b [ts' [-> _]]]]. cbn [skipn] in C1.
      pose proof (cap_open a b ts') as [C _]. alias.
    + pose proof (cap_pos ts). lia.
Qed.

Lemma ml_body_steps f ts :
  ml_comment_steps (S f) ts
  = t_steps (t_begin_comment 0x2A%N) ts
    + match r_out (t_parser (t_begin_comment 0x2A%N) ts) with
      | Ok _ r _ => repeat_steps (3 + len r) (t_item f) None 0 None r
      | Err _ => 0
      end
    + match r_out (t_parser (t_ignore_then (t_begin_comment 0x2A%N)
                               (t_ignored (t_repeated (t_item f)))) ts) with
      | Ok _ r _ => just_str_steps (str "*/") r
      | Err _ => 0
      end.
Proof. reflexivity. Qed.

Lemma begin_cost x (ts : toks) : t_steps (t_begin_comment x) ts <= 2.
Proof.
  unfold t_begin_comment. rewrite steps_ignore, steps_then.
  unfold t_map_err, t_ignored, t_just. cbn [t_steps t_parser]. destruct (r_out _); lia.
Qed.

Lemma begin_timed x : t_parser (t_begin_comment x) = @begin_comment Sp E x.
Proof. reflexivity. Qed.

Lemma level_all f : level (ml_comment_steps f).
Proof.
  induction f as [|f IH]; intros ts; [cbn [ml_comment_steps]; lia|].
  rewrite ml_body_steps. pose proof (begin_cost 0x2A%N ts) as B. rewrite begin_timed.
  assert (match r_out (t_parser (t_ignore_then (t_begin_comment 0x2A%N)
                               (t_ignored (t_repeated (t_item f)))) ts) with
      | Ok _ r _ => just_str_steps (str "*/") r
      | Err _ => 0
      end <= 2) as B2.
  { destruct (r_out _) as [a r al|e]; [|lia].
    eapply Nat.le_trans; [apply just_str_bound|]. apply le_n. }
  destruct (sl 0x2A%N ts) eqn:Y.
  - rewrite (begin_comment_yes _ _ Y). cbn [r_out].
    pose proof (loop_cost f IH (3 + len (skipn 2 ts)) 0 None (skipn 2 ts)). lia.
  - destruct (begin_comment_no _ _ Y) as [e [R _]].
    rewrite R. cbn [r_out].
    assert (errs (t_parser (t_ignore_then (t_begin_comment 0x2A%N)
              (t_ignored (t_repeated (t_item f)))) ts)) as [e' F].
    { destruct (then_err1 (@begin_comment Sp E 0x2A%N)
                  (t_parser (t_ignored (t_repeated (t_item f)))) ts) as [e' F].
      { exists e. rewrite R. reflexivity. }
      exists e'. apply (f_equal (fun o => match o with Err x => Err x | Ok a r l => Ok (snd a) r l end)) in F.
      exact F. }
    rewrite F. lia.
Qed.

(** A comment anywhere in [W]. *)

End Comment.
