(** What nodes leave behind. *)

From Coq Require Import NArith PeanoNat List Bool String Lia.
From Verif Require Import Chars Ast Errors Chumsky Spans Grammar Safe GrammarSafe GrammarNear SpanProps ErrSpec ErrAt ErrGrammar
  OrderSpec OrderCalc OrderLow OrderStuck OrderNeat.
Import ListNotations.
Local Open Scope list_scope.

Local Strategy 100 [p_filter p_just p_just_str p_end p_filter_map p_map p_ignored p_map_with_span p_map_err p_map_err_with_span
  p_try_map p_validate p_bind p_then p_ignore_then p_then_ignore p_delimited p_or p_choice p_or_not p_rewind p_repeat p_repeated
  p_exactly p_take_until p_recover_skip_until p_separated p_spanned ml_comment_rec nodes_rec span_since ErrAt.E].

Section OrderNode.
Variable t : text.

#[local] Hint Extern 0 (env span) => exact (ErrAt.E t) : typeclass_instances.

Notation parser := (Chumsky.parser span).
Notation located := (Chumsky.located span).
Notation toks := (Chumsky.toks span).
Notation pos_rem := (OrderCalc.pos_rem t).
Notation pos := (OrderCalc.pos t).
Notation wt := (OrderCalc.wt t).
Notation from := (OrderCalc.from t).
Notation pl := (OrderCalc.pl t).
Notation plain := (OrderCalc.plain t).
Notation okl := (OrderCalc.okl t).
Notation neat := (OrderStuck.neat t).
Notation blocks := (OrderStuck.blocks t).
Notation stuck := (OrderStuck.stuck t).
Notation needs := (OrderStuck.needs t).

(** ** Space, again *)

Lemma needs_ml : needs (is_c 0x2F%N) ml_comment.
Proof.
  intros ts W F. destruct (r_out (ml_comment ts)) as [a rest alt|e] eqn:O.
  - exfalso. apply F. unfold ml_comment, p_map_err_with_span in O.
    destruct (r_out (ml_comment_rec (S (List.length ts)) ts)) as [a' r' al'|e] eqn:X.
    + eapply (needs_ok t (is_c 0x2F%N) (ml_comment_rec (S (List.length ts)))); [|exact W|exact X].
      cbn [ml_comment_rec]. unfold ml_body. apply needs_delimited, needs_begin.
    + destruct (ml_comment_err _ _); cbn [r_out] in O; congruence.
  - exists e. split; [reflexivity|]. destruct (plain_dec t e) as [P|P]; [exact P|].
    elim F. apply ml_first. eapply stuck_ml; [exact W|]. exists e. auto.
Qed.

Lemma needs_ws : needs f_ws ws.
Proof.
  unfold ws. apply needs_map_err; [apply spans_kind|]. apply needs_or.
  - apply needs_ignored, needs_repeat; [lia|discriminate|]. apply needs_ignored, needs_filter.
    intros c H. unfold f_ws. rewrite H. reflexivity.
  - eapply needs_more; [|apply needs_ml]. intros c H. unfold is_c in H. unfold f_ws. rewrite H, orb_true_r. reflexivity.
Qed.

Lemma needs_node_space : needs f_ns node_space.
Proof.
  unfold node_space. apply needs_or.
  - eapply needs_more; [|apply needs_ws]. intros c H. unfold f_ns. rewrite H. reflexivity.
  - eapply needs_more; [|apply needs_esc_line]. intros c H. unfold is_c in H. unfold f_ns. rewrite H, orb_true_r. reflexivity.
Qed.

(** ** Where a node cannot end *)

Definition fails {A} (p : parser A) (ts : toks) : Prop := exists e, r_out (p ts) = Err e.

Definition shut (ts : toks) : Prop := fails node_terminator ts /\ fails (p_then slashdash (p_just 0x7B%N)) ts.

Lemma choice_fails {A} (ps : list (parser A)) ts : Forall (fun p => fails p ts) ps -> fails (p_choice ps) ts.
Proof.
  unfold p_choice. generalize (@None located). intros alt H. revert alt.
  induction H as [|p ps [e O] _ IH]; intros alt; cbn [p_choice_from].
  - destruct alt; eexists; reflexivity.
  - unfold fails. cbn [p_choice_from]. rewrite O. destruct (merge_alts alt (Some e)) as [alt' c].
    destruct (IH alt') as [e' X]. exists e'. exact X.
Qed.

Lemma needs_fails {A} f (p : parser A) ts : needs f p -> wt ts -> ~ first f ts -> fails p ts.
Proof. intros N W F. destruct (N ts W F) as (e & O & _). exists e. exact O. Qed.

Lemma just_fails x (ts : toks) : wt ts -> ~ first (is_c x) ts -> fails (p_just x) ts.
Proof. intros W. apply needs_fails; [|exact W]. apply needs_just. unfold is_c. apply N.eqb_refl. Qed.

Lemma map_fails {A B} (f : A -> B) (p : parser A) (ts : toks) : fails p ts -> fails (p_map f p) ts.
Proof. intros [e O]. exists e. apply map_err_out, O. Qed.

Lemma terminator_fails (ts : toks) : wt ts -> ts <> [] -> ~ first OrderNeat.is_nl ts -> ~ first (is_c 0x3B%N) ts ->
  fails comment ts -> fails node_terminator ts.
Proof.
  intros W N L S C. unfold node_terminator. apply choice_fails. foralls.
  - apply (needs_fails OrderNeat.is_nl); [apply needs_newline|exact W|exact L].
  - exact C.
  - apply map_fails, just_fails; assumption.
  - destruct ts as [|[c s] ts]; [congruence|]. eexists. reflexivity.
Qed.

(** A comment sign [/-] and what follows it. *)
Definition dash (ts r : toks) : Prop := exists s s', ts = (0x2F%N, s) :: (0x2D%N, s') :: r.

Lemma begin_ok c (ts : toks) a rest alt : r_out (begin_comment c ts) = Ok a rest alt ->
  exists s s', ts = (0x2F%N, s) :: (c, s') :: rest.
Proof.
  unfold begin_comment, p_ignore_then. intros O. apply map_rest in O. destruct O as [ab [O _]].
  unfold p_then in O. apply then_rest in O. destruct O as (r1 & al1 & al2 & O1 & O2 & _).
  unfold p_ignored in O2. apply map_rest in O2. destruct O2 as [c2 [O2 _]].
  unfold p_map_err in O1. cbn [r_out] in O1.
  destruct ts as [|[x s] ts]; [discriminate|]. cbn [p_just] in O1. destruct (x =? 0x2F)%N eqn:E1; [|discriminate].
  cbn in O1. injection O1 as _ <- _. apply N.eqb_eq in E1. subst x.
  destruct ts as [|[y s'] ts]; [discriminate|]. cbn [p_just] in O2. destruct (y =? c)%N eqn:E2; [|discriminate].
  cbn in O2. injection O2 as <- <- _. apply N.eqb_eq in E2. subst y. eauto.
Qed.

Lemma dash_not_comment (ts r : toks) : dash ts r -> fails comment ts.
Proof.
  intros (s & s' & ->). destruct (r_out (comment ((0x2F%N, s) :: (0x2D%N, s') :: r))) as [a rest alt|e] eqn:O; [|exists e; exact O].
  exfalso. unfold comment, p_ignored in O. apply map_rest in O. destruct O as [ab [O _]].
  unfold p_then in O. apply then_rest in O. destruct O as (r1 & al1 & al2 & O1 & _).
  apply begin_ok in O1. destruct O1 as (x & y & X). congruence.
Qed.

Lemma dash_not_end (ts r : toks) : wt ts -> dash ts r -> fails node_terminator ts.
Proof.
  intros W D. pose proof (dash_not_comment _ _ D) as C. destruct D as (s & s' & ->). apply terminator_fails; [exact W|discriminate| | |exact C].
  - intros (c & s2 & ts' & [= <- <- <-] & X). discriminate.
  - intros (c & s2 & ts' & [= <- <- <-] & X). discriminate.
Qed.

Lemma slashdash_cases (ts : toks) : wt ts ->
  (exists r r2 a al o al2, dash ts r /\ wt r /\ wt r2 /\ r_out (p_repeated node_space r) = Ok a r2 al /\ r_out (slashdash ts) = Ok o r2 al2)
  \/ (exists e, r_out (begin_comment 0x2D%N ts) = Err e /\ plain e /\ r_out (slashdash ts) = Ok None ts (Some e)).
Proof.
  intros W. unfold slashdash, p_or_not. destruct (r_out (begin_comment 0x2D%N ts)) as [a r al|e] eqn:O.
  - left. destruct (repeated_ok node_space r) as (b & r2 & al2 & O2).
    assert (wt r) as W1 by (eapply (ok_wt t (begin_comment 0x2D%N)); [apply b_begin_comment, from_place|exact W|exact O]).
    assert (wt r2) as W2.
    { eapply (ok_wt t (p_repeated node_space)); [apply l_repeated; [apply from_place|apply low_node_space]|exact W1|exact O2]. }
    destruct (merge_alts al al2) as [al3 c] eqn:M.
    assert (r_out (p_then_ignore (begin_comment 0x2D%N) (p_repeated node_space) ts) = Ok a r2 al3) as X.
    { unfold p_then_ignore, p_map, p_then, p_bind. cbn [r_out]. rewrite O, O2, M. reflexivity. }
    exists r, r2, b, al2, (Some a), al3. rewrite X. cbn [r_out]. apply begin_ok in O. destruct O as (s & s' & ->). split; [exists s, s'; reflexivity|auto].
  - right. exists e. split; [reflexivity|]. split; [eapply err_pl; [apply b_begin_comment, pl_place|exact W|exact O]|].
    assert (r_out (p_then_ignore (begin_comment 0x2D%N) (p_repeated node_space) ts) = Err e) as X.
    { apply map_err_out, bind_fails1, O. }
    rewrite X. reflexivity.
Qed.

Lemma shut_split c : (OrderNeat.is_nl c || is_c 0x3B c || is_c 0x2F c || is_c 0x7B c)%N = false ->
  OrderNeat.is_nl c = false /\ is_c 0x3B%N c = false /\ is_c 0x2F%N c = false /\ is_c 0x7B%N c = false.
Proof. intros H. do 3 (apply orb_false_elim in H; destruct H as [H ?]). auto. Qed.

Lemma shut_first g (ts : toks) : wt ts -> first g ts ->
  (forall c, g c = true -> (OrderNeat.is_nl c || is_c 0x3B c || is_c 0x2F c || is_c 0x7B c)%N = false) -> shut ts.
Proof.
  intros W F D.
  assert (forall h, (forall c, (OrderNeat.is_nl c || is_c 0x3B c || is_c 0x2F c || is_c 0x7B c)%N = false -> h c = false) -> ~ first h ts) as X.
  { intros h H. revert F. apply apart. intros c G Y. specialize (H c (D c G)). congruence. }
  assert (~ first (is_c 0x2F%N) ts) as X2.
  { apply X. intros c H. apply shut_split in H. tauto. }
  split.
  - apply terminator_fails; [exact W| | | |].
    + destruct F as (c & s & ts' & -> & _). discriminate.
    + apply X. intros c H. apply shut_split in H. tauto.
    + apply X. intros c H. apply shut_split in H. tauto.
    + eapply needs_fails; [apply needs_comment|exact W|exact X2].
  - destruct (slashdash_cases ts W) as [(r & r2 & a & al & o & al2 & (s & s' & ->) & _)|(e & _ & _ & O)].
    + elim X2. exists 0x2F%N, s, ((0x2D%N, s') :: r). auto.
    + destruct (just_fails 0x7B%N ts W) as [e' Y].
      * apply X. intros c H. apply shut_split in H. tauto.
      * eapply bind_fails; [exact O|exact Y].
Qed.

Lemma shut_ml (ts : toks) : wt ts -> ml ts -> shut ts.
Proof.
  intros W M. pose proof (ml_not_comment t ts M) as C. destruct (ml_not_begin t 0x2D%N ts) as [e0 B]; [discriminate|exact M|].
  destruct M as (s & s' & r & ->). split.
  - apply terminator_fails; [exact W|discriminate| | |exact C].
    + intros (c & s2 & ts' & [= <- <- <-] & X). discriminate.
    + intros (c & s2 & ts' & [= <- <- <-] & X). discriminate.
  - destruct (slashdash_cases _ W) as [(r' & r2 & a & al & o & al2 & (s1 & s2 & X) & _)|(e & _ & _ & O)]; [congruence|].
    destruct (just_fails 0x7B%N _ W) as [e' Y]; [|eapply bind_fails; [exact O|exact Y]].
    intros (c & s2 & ts' & [= <- <- <-] & X). discriminate.
Qed.

Lemma shut_dash (ts r r2 : toks) a al : wt ts -> dash ts r -> r_out (p_repeated node_space r) = Ok a r2 al ->
  ~ first (is_c 0x7B%N) r2 -> shut ts.
Proof.
  intros W D O F. split; [eapply dash_not_end; eassumption|].
  destruct (slashdash_cases ts W) as [(r' & r2' & a' & al' & o & al2 & D' & W1 & W2 & O' & S)|(e & B & _)].
  - destruct D as (s & s' & ->). destruct D' as (s1 & s1' & X). injection X as <- <- <-.
    rewrite O in O'. injection O' as <- <- <-. destruct (just_fails 0x7B%N r2 W2 F) as [e Y].
    eapply bind_fails; [exact S|exact Y].
  - exfalso. destruct D as (s & s' & ->). unfold begin_comment, p_ignore_then, p_then, p_map, p_bind, p_map_err, p_ignored in B.
    cbn in B. discriminate.
Qed.

Lemma shut_stuck (ts : toks) : wt ts -> stuck node_space ts -> shut ts.
Proof.
  intros W S. apply stuck_node_space in S; [|exact W]. destruct S as [S|S]; [apply shut_ml; assumption|].
  eapply shut_first; [exact W|exact S|]. intros c X. apply N.eqb_eq in X. subst. reflexivity.
Qed.

Lemma stuck_ignore_then {A B} (G : toks -> Prop) (p : parser A) (k : parser B) (ts : toks) : neat G p -> wt ts ->
  stuck (p_ignore_then p k) ts ->
  stuck p ts \/ exists a rest alt, r_out (p ts) = Ok a rest alt /\ (G rest \/ stuck k rest).
Proof. intros N W S. apply stuck_map in S. apply (stuck_bind t G p (fun _ => k)); assumption. Qed.

Lemma ignore_then_ok {A B} (p : parser A) (k : parser B) (ts : toks) b rest alt : r_out (p_ignore_then p k ts) = Ok b rest alt ->
  exists a r1 al1 al2, r_out (p ts) = Ok a r1 al1 /\ r_out (k r1) = Ok b rest al2 /\ alt = fst (merge_alts al1 al2).
Proof.
  unfold p_ignore_then. intros O. apply map_rest in O. destruct O as [bc [O ->]]. unfold p_then in O. apply then_rest in O.
  destruct O as (r3 & al3 & al4 & O3 & O4 & X). exists (fst bc), r3, al3, al4. auto.
Qed.

Lemma ignore_then_run {A B} (p : parser A) (k : parser B) (ts : toks) a r1 al1 b rest al2 : r_out (p ts) = Ok a r1 al1 ->
  r_out (k r1) = Ok b rest al2 -> r_out (p_ignore_then p k ts) = Ok b rest (fst (merge_alts al1 al2)).
Proof.
  intros O1 O2. unfold p_ignore_then, p_map, p_then, p_bind. cbn [r_out]. rewrite O1, O2. destruct (merge_alts al1 al2). reflexivity.
Qed.

Lemma then_fail {A B} (p : parser A) (k : parser B) (ts : toks) a r1 al1 e : r_out (p ts) = Ok a r1 al1 ->
  r_out (k r1) = Err e -> r_out (p_then p k ts) = Err (fst (lmax_opt e al1)).
Proof. intros O1 O2. unfold p_then, p_bind. rewrite O1, O2. destruct (lmax_opt e al1). reflexivity. Qed.

Lemma or_not_fail {A} (p : parser A) (ts : toks) e : r_out (p ts) = Err e ->
  r_out (p_or_not p ts) = Ok None ts (Some e) /\ r_errs (p_or_not p ts) = [].
Proof. intros O. unfold p_or_not. rewrite O. split; reflexivity. Qed.

Definition blocked (ts : toks) : Prop := forall a r1 alt, r_out (p_repeated node_space ts) = Ok a r1 alt -> shut r1.

Definition item : parser (@prop_or_arg_t span) := p_ignore_then (p_repeat 1 None node_space) prop_or_arg.

Lemma item_shut c : itemb c = true -> (OrderNeat.is_nl c || is_c 0x3B c || is_c 0x2F c || is_c 0x7B c)%N = false.
Proof.
  intros H. destruct (OrderNeat.is_nl c || is_c 0x3B c || is_c 0x2F c || is_c 0x7B c)%N eqn:X; [|reflexivity]. exfalso.
  unfold OrderNeat.is_nl, is_c in X.
  repeat (apply orb_prop in X; destruct X as [X|X]); apply N.eqb_eq in X; subst; discriminate.
Qed.

Lemma no_brace g (ts : toks) : first g ts -> g 0x7B%N = false -> ~ first (is_c 0x7B%N) ts.
Proof. intros F G. revert F. apply apart. intros c X Y. apply N.eqb_eq in Y. subst. congruence. Qed.

Lemma stuck_dashed (r1 : toks) : wt r1 -> stuck (p_ignore_then
        (p_ignore_then (begin_comment 0x2D%N) (p_repeated node_space))
        prop_or_arg_inner) r1 -> shut r1.
Proof.
  intros W1 S. apply (stuck_ignore_then (stuck node_space)) in S; [|apply neat_begin_spaces|exact W1].
  destruct S as [S|(b & r2 & al2 & O2 & S)].
  - exfalso. apply (stuck_ignore_then nowhere) in S; [|apply neat_pl, b_begin_comment, pl_place|exact W1].
    destruct S as [S|(b & r2 & al2 & O2 & [[]|(e & S & _)])].
    + eapply stuck_pl; [|exact W1|exact S]. apply b_begin_comment, pl_place.
    + destruct (repeated_ok node_space r2) as (b' & r3 & al3 & O3). congruence.
  - assert (wt r2) as W2 by (eapply ok_wt; [apply low_begin_spaces|exact W1|exact O2]).
    apply ignore_then_ok in O2.
    destruct O2 as (x & r3 & al3 & al4 & O3 & O4 & _). apply begin_ok in O3.
    eapply shut_dash; [exact W1|exact O3|exact O4|]. destruct S as [S|S].
    + eapply no_brace; [eapply stuck_space_first; [exact W2|exact S]|reflexivity].
    + eapply no_brace; [eapply needs_stuck; [apply needs_inner|exact W2|exact S]|reflexivity].
Qed.

Lemma stuck_prop (r1 : toks) : wt r1 -> stuck prop_or_arg r1 -> shut r1.
Proof.
  intros W1 S. unfold prop_or_arg in S. apply stuck_or in S. destruct S as [S|S].
  - apply stuck_map in S. apply stuck_dashed; assumption.
  - eapply shut_first; [exact W1|eapply needs_stuck; [apply needs_inner|exact W1|exact S]|]. apply item_shut.
Qed.

Lemma stuck_after {A B} (p : parser A) (k : parser B) (H : toks -> Prop) (ts : toks) a r1 al : neat nowhere p -> okl from p ->
  (forall ts, wt ts -> stuck p ts -> H ts) -> (forall ts, wt ts -> stuck k ts -> H ts) ->
  wt ts -> stuck (p_ignore_then (p_repeat 1 None p) k) ts -> r_out (p_repeated p ts) = Ok a r1 al -> H r1.
Proof.
  intros N L HP HK W S O. apply (stuck_ignore_then (stuck p)) in S; [|apply neat_repeat_nowhere; assumption|exact W].
  destruct S as [S|(l & r1' & al1 & O1 & S)].
  - apply stuck_repeat in S. pose proof S as (e & E & _). rewrite (repeated_stays _ _ _ E) in O. injection O as <- <- <-.
    apply HP; assumption.
  - destruct (repeat_one p ts) as [(e & _ & X)|X]; [congruence|]. rewrite X, O in O1. injection O1 as <- <- <-.
    assert (wt r1) as W1.
    { eapply (ok_wt t (p_repeated p)); [apply l_repeated; [apply from_place|exact L]|exact W|exact O]. }
    destruct S as [S|S]; auto.
Qed.

Lemma stuck_item_blocked (ts : toks) : wt ts -> stuck item ts -> blocked ts.
Proof.
  intros W S a r1 al O. eapply stuck_after; [apply neat_node_space|apply low_node_space|apply shut_stuck|apply stuck_prop|exact W|exact S|exact O].
Qed.

Lemma equals_blocked (ts : toks) : wt ts -> equals ts -> blocked ts.
Proof.
  intros W F a r1 al O. destruct (needs_fails f_ns node_space ts) as [e X]; [apply needs_node_space|exact W| |].
  - revert F. apply apart. intros c X Y. apply N.eqb_eq in X. subst. discriminate.
  - rewrite (repeated_stays _ _ _ X) in O. injection O as <- <- <-. eapply shut_first; [exact W|exact F|].
    intros c Y. apply N.eqb_eq in Y. subst. reflexivity.
Qed.

Lemma low_spaces : okl from (p_repeated node_space).
Proof. apply l_repeated; [apply from_place|apply low_node_space]. Qed.

Lemma low_item_ : okl from item.
Proof.
  apply l_ignore_then; [apply from_place| |apply low_prop_or_arg]. apply l_repeat; [apply from_place|apply low_node_space].
Qed.

Lemma prop_fails f (ts : toks) : wt ts -> first f ts -> (forall c, f c = true -> (itemb c || is_c 0x2F c)%N = true -> False) -> fails prop_or_arg ts.
Proof.
  intros W F D. unfold prop_or_arg.
  assert (forall g, (forall c, g c = true -> (itemb c || is_c 0x2F c)%N = true) -> ~ first g ts) as X.
  { intros g H. revert F. apply apart. intros c A B. eapply D; [exact A|apply H, B]. }
  apply or_fails.
  - apply map_fails, map_fails. destruct (needs_fails (is_c 0x2F%N) (p_ignore_then (begin_comment 0x2D%N) (p_repeated node_space)) ts) as [e O].
    + apply needs_ignore_then, needs_begin.
    + exact W.
    + apply X. intros c H. rewrite H, orb_true_r. reflexivity.
    + exists e. apply bind_fails1, O.
  - apply (needs_fails itemb); [apply needs_inner|exact W|]. apply X. intros c H. rewrite H. reflexivity.
Qed.

(** What holds where the text is in place need only be shown there. *)
Lemma neat_here {A} (G G' : toks -> Prop) (p : parser A) : okl from p -> (forall ts, wt ts -> G ts -> G' ts) -> neat G p -> neat G' p.
Proof.
  intros L H N ts a rest alt W O. destruct (N _ _ _ _ W O) as [X|X]; [left; exact X|right].
  apply H; [|exact X]. eapply ok_wt; eassumption.
Qed.

Lemma neat_items : neat blocked node_items.
Proof.
  unfold node_items. change (p_ignore_then (p_repeat 1 None node_space) prop_or_arg) with item.
  apply (neat_here (fun ts => equals ts \/ stuck item ts)).
  - apply l_repeated; [apply from_place|apply low_item_].
  - intros ts W [H|H]; [apply equals_blocked|apply stuck_item_blocked]; assumption.
  - apply neat_repeat; [apply low_item_| |].
    + unfold item. apply (neat_ignore_then t (stuck node_space)).
      * apply l_repeat; [apply from_place|apply low_node_space].
      * apply neat_spaces1.
      * apply neat_prop_or_arg.
      * intros ts W S. pose proof (stuck_node_space t ts W S) as S2.
        destruct S2 as [M|F].
        -- unfold prop_or_arg. apply or_fails.
           ++ apply map_fails, map_fails. destruct (ml_not_begin t 0x2D%N ts) as [e O]; [discriminate|exact M|].
              exists e. apply bind_fails1, map_err_out, bind_fails1, O.
           ++ apply (needs_fails itemb); [apply needs_inner|exact W|]. apply ml_first in M. revert M. apply apart. apply item_not. reflexivity.
        -- eapply prop_fails; [exact W|exact F|]. intros c X. apply N.eqb_eq in X. subst. discriminate.
    + intros ts W F. apply map_fails. destruct (needs_fails f_ns (p_repeat 1 None node_space) ts) as [e O].
      * apply needs_repeat; [lia|discriminate|apply needs_node_space].
      * exact W.
      * revert F. apply apart. intros c X Y. apply N.eqb_eq in X. subst. discriminate.
      * exists e. apply bind_fails1, O.
Qed.

(** ** Children *)

Definition no_end (ts : toks) : Prop := fails (p_then (p_repeated node_space) node_terminator) ts.

Lemma no_end_at (ts : toks) a r1 al : r_out (p_repeated node_space ts) = Ok a r1 al -> fails node_terminator r1 -> no_end ts.
Proof. intros O [e E]. eapply bind_fails; [exact O|exact E]. Qed.

(** What may follow the nodes of a block that is closed. *)
Definition no_brace_next : toks -> Prop := first (fun c => negb (c =? 0x7D)%N).

Section Children.
Variable nodes : parser (list (snode span)).
Hypothesis L : okl from nodes.
Hypothesis LB : okl from (braced_nodes nodes).
Hypothesis N : neat no_brace_next nodes.

Lemma needs_braced : needs (is_c 0x7B%N) (braced_nodes nodes).
Proof. apply needs_ignore_then, needs_just. reflexivity. Qed.

Lemma neat_braced : neat nowhere (braced_nodes nodes).
Proof.
  unfold braced_nodes. apply (neat_ignore_then t nowhere); [apply l_just, from_place|apply neat_pl, l_just, pl_place| |apply blocks_nowhere].
  apply neat_map_err_with_span, (neat_then_ignore t no_brace_next); [exact L|exact N|apply neat_pl, l_just, pl_place|].
  intros ts W F. apply just_fails; [exact W|]. revert F. apply apart. intros c X Y. unfold is_c in Y. rewrite Y in X. discriminate.
Qed.

Lemma neat_slashdash : neat (stuck node_space) slashdash.
Proof.
  unfold slashdash. apply neat_or_not.
  - apply neat_map, neat_then_both; [apply b_begin_comment, from_place|apply neat_pl, b_begin_comment, pl_place|apply neat_spaces].
  - intros ts W S. exfalso. apply stuck_map in S. apply (stuck_bind t nowhere) in S; [|apply neat_pl, b_begin_comment, pl_place|exact W].
    destruct S as [S|(b & r2 & al2 & O2 & [[]|(e & S & _)])].
    + eapply stuck_pl; [|exact W|exact S]. apply b_begin_comment, pl_place.
    + destruct (repeated_ok node_space r2) as (b' & r3 & al3 & O3). congruence.
Qed.

Definition block_start : parser (option unit) := p_ignore_then (p_repeated node_space) slashdash.

Lemma low_block_start : okl from block_start.
Proof. apply l_ignore_then; [apply from_place|apply low_spaces|apply low_slashdash]. Qed.

Lemma or_not_ok {A} (p : parser A) (ts : toks) : exists o rest alt, r_out (p_or_not p ts) = Ok o rest alt.
Proof. unfold p_or_not. destruct (r_out (p ts)); cbn [r_out]; do 3 eexists; reflexivity. Qed.

Lemma slashdash_ok (ts : toks) : exists o rest alt, r_out (slashdash ts) = Ok o rest alt.
Proof. apply or_not_ok. Qed.

Lemma block_start_stuck (ts : toks) : wt ts -> forall o r2 al, r_out (block_start ts) = Ok o r2 al ->
  exists a r1 al1, r_out (p_repeated node_space ts) = Ok a r1 al1 /\ wt r1 /\ (r2 = r1 \/ exists r, dash r1 r) /\ wt r2
    /\ exists al2, r_out (slashdash r1) = Ok o r2 al2.
Proof.
  intros W o r2 al O. apply ignore_then_ok in O. destruct O as (a & r1 & al1 & al2 & O1 & O2 & _).
  assert (wt r1) as W1 by (eapply ok_wt; [apply low_spaces|exact W|exact O1]).
  exists a, r1, al1. split; [exact O1|]. split; [exact W1|].
  destruct (slashdash_cases r1 W1) as [(r & r2' & a' & al' & o' & al2' & D & _ & W2 & O' & S)|(e & B & _ & S)];
    rewrite S in O2; injection O2 as <- <- <-; (split; [|split; [assumption|eauto]]); eauto.
Qed.

Lemma neat_block_start : neat (fun ts => True) block_start.
Proof. intros ts a rest alt W O. right. exact I. Qed.

Lemma neat_children : neat no_end (opt_children nodes).
Proof.
  unfold opt_children. fold block_start. apply neat_or_not.
  - apply neat_any, (neat_then t (stuck node_space)).
    + apply low_block_start.
    + unfold block_start. apply neat_map.
      apply (neat_bind_on t (stuck node_space)); [apply low_spaces|apply neat_spaces|intros _; apply neat_slashdash|].
      intros ts _ o rest alt W S O. destruct (slashdash_cases ts W) as [(r & r2' & a' & al' & o' & al2' & D & _ & _ & O' & S')|(e & B & _ & S')].
      * exfalso. apply stuck_node_space in S; [|exact W]. destruct D as (s & s' & ->). destruct S as [(x & y & z & X)|(x & y & z & X & Y)].
        -- congruence.
        -- injection X as <- <- <-. discriminate.
      * rewrite S' in O. injection O as <- <- <-. exact S.
    + apply neat_spanned, neat_braced.
    + apply (blocks_spaces t (is_c 0x7B%N)); [apply needs_spanned, needs_braced|].
      intros c X Y. apply N.eqb_eq in Y. subst. discriminate.
  - intros ts W S.
    destruct (repeated_ok node_space ts) as (a & r1 & al1 & O1).
    destruct (slashdash_ok r1) as (o & r2 & al2 & O2).
    pose proof (ignore_then_run _ _ _ _ _ _ _ _ _ O1 O2) as O. fold block_start in O.
    destruct (block_start_stuck ts W _ _ _ O) as (a' & r1' & al1' & O1' & W1 & D & W2 & _). rewrite O1 in O1'. injection O1' as <- <- <-.
    apply (no_end_at ts a r1 al1 O1). destruct D as [->|[r D]]; [|eapply dash_not_end; eassumption].
    (* no slashdash: the failing part *)
    destruct (first_dec (is_c 0x7B%N) r1) as [F|F].
    + apply terminator_fails; [exact W1| | | |].
      * destruct F as (c & s & ts' & -> & _). discriminate.
      * revert F. apply apart. intros c X Y. apply N.eqb_eq in X. subst. discriminate.
      * revert F. apply apart. intros c X Y. apply N.eqb_eq in X. subst. discriminate.
      * apply (needs_fails (is_c 0x2F%N)); [apply needs_comment|exact W1|].
        revert F. apply apart. intros c X Y. apply N.eqb_eq in X. subst. discriminate.
    + (* the block does not open, so the trouble is in the space before *)
      destruct S as (e & E & P).
      assert (needs (is_c 0x7B%N) (p_spanned (braced_nodes nodes))) as NB by apply needs_spanned, needs_braced.
      destruct (NB r1 W1 F) as (e2 & E2 & P2). rewrite (then_fail _ _ _ _ _ _ _ O E2) in E. injection E as <-.
      destruct (lmax_opt e2 _) as [e3 c] eqn:M.
      assert (~ opt plain (fst (merge_alts al1 al2))) as Q.
      { intros Q. apply P. eapply lmax_opt_with; [apply plain_respects|exact M|exact P2|exact Q]. }
      destruct (merge_alts al1 al2) as [al3 c3] eqn:M3. cbn [fst] in Q.
      destruct (neat_spaces t ts _ _ _ W O1) as [Q1|Q1]; [|apply shut_stuck; assumption].
      destruct (neat_slashdash r1 _ _ _ W1 O2) as [Q2|Q2]; [|apply shut_stuck; assumption].
      elim Q. eapply merge_alts_with; [apply plain_respects|exact M3|exact Q1|exact Q2].
Qed.

Lemma blocked_children (ts : toks) o rest alt : wt ts -> blocked ts -> r_out (opt_children nodes ts) = Ok o rest alt -> o = None /\ rest = ts /\ no_end rest
  /\ r_errs (opt_children nodes ts) = [].
Proof.
  intros W B O. destruct (repeated_ok node_space ts) as (a & r1 & al1 & O1).
  destruct (B _ _ _ O1) as [S1 [e2 S2]].
  destruct (slashdash_ok r1) as (o2 & r2 & al2 & O2).
  pose proof (ignore_then_run _ _ _ _ _ _ _ _ _ O1 O2) as O3. fold block_start in O3.
  destruct (block_start_stuck ts W _ _ _ O3) as (a' & r1' & al1' & O1' & W1 & D & W2 & _).
  assert (~ first (is_c 0x7B%N) r2) as F.
  { intros (c & s & r & -> & X). apply N.eqb_eq in X. subst c. unfold p_then, p_bind in S2. rewrite O2 in S2. cbn [p_just] in S2. rewrite N.eqb_refl in S2. cbn [r_out] in S2.
    match type of S2 with context [merge_alts ?a ?b] => destruct (merge_alts a b) end. discriminate. }
  assert (fails (p_spanned (braced_nodes nodes)) r2) as [e4 E4].
  { apply (needs_fails (is_c 0x7B%N)); [apply needs_spanned, needs_braced|exact W2|exact F]. }
  destruct (or_not_fail _ _ _ (then_fail _ _ _ _ _ _ _ O3 E4)) as [X Y].
  fold (opt_children nodes) in X, Y. unfold opt_children in O. fold block_start in O. rewrite X in O. injection O as <- <- <-.
  split; [reflexivity|]. split; [reflexivity|]. split; [exact (no_end_at _ _ _ _ O1 S1)|]. exact Y.
Qed.

Definition node_head : parser (option (spanned typename span) * spanned text span) :=
  p_then (p_or_not (p_spanned type_name)) (p_spanned ident).

Definition nodeb (c : char) : bool := (wordb c || is_c 0x28 c)%N.

Lemma needs_head : needs nodeb node_head.
Proof.
  unfold node_head. apply needs_opt; apply needs_spanned.
  - eapply needs_more; [|apply needs_type_name]. intros c H. unfold nodeb. rewrite H, orb_true_r. reflexivity.
  - eapply needs_more; [|apply needs_ident]. intros c H. unfold nodeb. rewrite H. reflexivity.
Qed.

Lemma low_head : okl from node_head.
Proof.
  apply l_then; [apply from_place|apply l_or_not, l_spanned, low_type_name|apply l_spanned, low_ident].
Qed.

Lemma neat_head : neat nowhere node_head.
Proof.
  unfold node_head. apply (neat_then t (first (is_c 0x28%N))).
  - apply l_or_not, l_spanned, low_type_name.
  - apply neat_or_not; [apply neat_any, neat_spanned, neat_type_name|].
    intros ts W S. eapply needs_stuck; [|exact W|exact S]. apply needs_spanned, needs_type_name.
  - apply neat_spanned, neat_ident.
  - intros ts W F. apply (needs_fails wordb); [apply needs_spanned, needs_ident|exact W|]. revert F. apply apart.
    apply word_not. reflexivity.
Qed.

Lemma needs_node : needs nodeb (node_ nodes).
Proof. unfold node_. apply needs_map, needs_then_ignore, needs_then, needs_then. exact needs_head. Qed.

Definition node_end : parser (list unit * unit) := p_then (p_repeated node_space) node_terminator.

Lemma neat_end : neat nowhere node_end.
Proof.
  unfold node_end. apply (neat_then t (stuck node_space)); [apply low_spaces|apply neat_spaces|apply neat_pl, b_node_terminator, pl_place|].
  intros ts W S. apply shut_stuck; assumption.
Qed.

Lemma neat_node : neat nowhere (node_ nodes).
Proof.
  unfold node_. fold node_head. apply neat_map, (neat_then_ignore t no_end).
  - apply l_then; [apply from_place| |].
    + apply l_then; [apply from_place|apply low_head|apply low_node_items].
    + unfold opt_children. apply l_or_not, l_then; [apply from_place|apply low_block_start|apply l_spanned, LB].
  - apply (neat_bind_on t blocked).
    + apply l_then; [apply from_place|apply low_head|apply low_node_items].
    + apply neat_then_both; [apply low_head|apply neat_head|apply neat_items].
    + intros _. apply neat_children.
    + intros ts _ b rest alt W B O. apply (blocked_children ts b rest alt W B) in O. apply O.
  - apply neat_end.
  - intros ts W H. exact H.
Qed.

Definition dashed_node : parser (option unit * snode span) := p_then slashdash (p_spanned (node_ nodes)).

Definition entryb (c : char) : bool := (nodeb c || is_c 0x2F c)%N.

Lemma needs_entry : needs entryb dashed_node.
Proof.
  unfold dashed_node, slashdash. apply needs_opt.
  - apply needs_then_ignore. eapply needs_more; [|apply needs_begin]. intros c H. unfold entryb. rewrite H, orb_true_r. reflexivity.
  - apply needs_spanned. eapply needs_more; [|apply needs_node]. intros c H. unfold entryb. rewrite H. reflexivity.
Qed.

Lemma sp_node c : sp_first c = true -> nodeb c = true -> False.
Proof. unfold sp_first. intros X Y. apply orb_prop in X. destruct X as [X|X]; apply N.eqb_eq in X; subst; discriminate. Qed.

Lemma neat_entry : neat nowhere dashed_node.
Proof.
  unfold dashed_node. apply (neat_then t (stuck node_space)).
  - apply low_slashdash.
  - apply neat_slashdash.
  - apply neat_spanned, neat_node.
  - apply (blocks_spaces t nodeb); [apply needs_spanned, needs_node|apply sp_node].
Qed.

End Children.

End OrderNode.
