(** What the parsers of src/grammar.rs leave behind: an error that is not shown
    where it happened stays behind only where the text cannot be read on. *)

From Coq Require Import NArith PeanoNat List Bool String Lia.
From Verif Require Import Chars Ast Errors Chumsky Spans Grammar Safe GrammarSafe GrammarNear SpanProps ErrSpec ErrAt ErrGrammar
  OrderSpec OrderCalc OrderLow OrderStuck.
Import ListNotations.
Local Open Scope list_scope.

Local Strategy 100 [p_filter p_just p_just_str p_end p_filter_map p_map p_ignored p_map_with_span p_map_err p_map_err_with_span
  p_try_map p_validate p_bind p_then p_ignore_then p_then_ignore p_delimited p_or p_choice p_or_not p_rewind p_repeat p_repeated
  p_exactly p_take_until p_recover_skip_until p_separated p_spanned ml_comment_rec nodes_rec span_since ErrAt.E].

Section OrderNeat.
Variable t : text.

#[local] Hint Extern 0 (env span) => exact (ErrAt.E t) : typeclass_instances.

Notation parser := (Chumsky.parser span).
Notation located := (Chumsky.located span).
Notation toks := (Chumsky.toks span).
Notation pos_rem := (OrderCalc.pos_rem t).
Notation pos := (OrderCalc.pos t).
Notation wt := (OrderCalc.wt t).
Notation from := (OrderCalc.from t).
Notation pl := (OrderCalc.pl t).
Notation plain := (OrderCalc.plain t).
Notation okl := (OrderCalc.okl t).
Notation neat := (OrderStuck.neat t).
Notation blocks := (OrderStuck.blocks t).
Notation stuck := (OrderStuck.stuck t).
Notation needs := (OrderStuck.needs t).

Ltac foralls := repeat first [apply Forall_nil | apply Forall_cons].

Lemma stuck_pl {A} (p : parser A) ts : okl pl p -> wt ts -> ~ stuck p ts.
Proof. intros H W (e & O & P). apply P. eapply err_pl; eassumption. Qed.

Lemma needs_blocks {A} f (G : toks -> Prop) (p : parser A) : needs f p -> (forall ts, G ts -> ~ first f ts) -> blocks G p.
Proof. intros H C ts W X. destruct (H ts W (C ts X)) as (e & O & _). eauto. Qed.

Lemma apart (f g : char -> bool) : (forall c, f c = true -> g c = true -> False) ->
  forall ts : toks, first f ts -> ~ first g ts.
Proof.
  intros H ts (c & s & ts' & -> & F) (c' & s' & ts2 & [= <- <- <-] & K). eapply H; eassumption.
Qed.

Lemma neat_or_apart {A} f g G (p k : parser A) : needs f p -> needs g k -> (forall c, f c = true -> g c = true -> False) ->
  neat G p -> neat G k -> neat G (p_or p k).
Proof.
  intros NP NK D P K. apply neat_or; [exact P|exact K| |].
  - intros ts e a rest alt W O O2. pose proof (needs_ok t _ _ _ _ _ _ NK W O2) as F.
    destruct (NP ts W) as (e' & O' & Q); [|congruence]. intros X. exact (apart _ _ D ts X F).
  - intros ts a rest alt W _ O. pose proof (needs_ok t _ _ _ _ _ _ NP W O) as F.
    apply NK; [exact W|]. exact (apart _ _ D ts F).
Qed.

Lemma neat_ignore_then {A B} (G G' : toks -> Prop) (p : parser A) (k : parser B) : okl from p -> neat G p ->
  neat G' k -> blocks G k -> neat G' (p_ignore_then p k).
Proof. intros. apply neat_map. eapply neat_then; eassumption. Qed.

Lemma neat_then_ignore {A B} (G G' : toks -> Prop) (p : parser A) (k : parser B) : okl from p -> neat G p ->
  neat G' k -> blocks G k -> neat G' (p_then_ignore p k).
Proof. intros. apply neat_map. eapply neat_then; eassumption. Qed.

Lemma map_err_out {A B} (f : A -> B) (p : parser A) ts e : r_out (p_map f p ts) = Err e <-> r_out (p ts) = Err e.
Proof. unfold p_map. cbn [r_out]. destruct (r_out (p ts)); split; congruence. Qed.

(** A sequence fails if its second part does. *)
Lemma bind_fails {A B} (p : parser A) (k : A -> parser B) ts a rest alt e :
  r_out (p ts) = Ok a rest alt -> r_out (k a rest) = Err e -> exists e', r_out (p_bind p k ts) = Err e'.
Proof.
  intros O K. unfold p_bind. rewrite O, K. destruct (lmax_opt e alt). cbn. eauto.
Qed.

Lemma bind_fails1 {A B} (p : parser A) (k : A -> parser B) ts e :
  r_out (p ts) = Err e -> r_out (p_bind p k ts) = Err e.
Proof. intros O. unfold p_bind. rewrite O. reflexivity. Qed.

(** ** Space *)

Definition ml (ts : toks) : Prop := exists s s' ts', ts = (0x2F%N, s) :: (0x2A%N, s') :: ts'.

Lemma stuck_ml (ts : toks) : wt ts -> stuck ml_comment ts -> ml ts.
Proof.
  intros (pre & q & T & ->) (e & O & P). unfold ml_comment, p_map_err_with_span in O.
  remember (S (List.length (toks_at pre q))) as k eqn:K.
  assert (wt (toks_at pre q)) as W by (exists pre, q; auto).
  destruct (r_out (ml_comment_rec k (toks_at pre q))) as [a rest alt|e0] eqn:O2; [congruence|].
  assert (plain e0) as P0 by (eapply (err_pl t (ml_comment_rec k)); [apply b_ml_rec, pl_place|exact W|exact O2]).
  destruct (ml_comment_err _ _) as [e'|] eqn:M; cbn [r_out] in O; [|congruence]. injection O as <-.
  unfold ml_comment_err in M. destruct (is_eoi_error (l_err e0)) eqn:Z; cbn [andb] in M.
  2: { injection M as <-. elim P. exact P0. }
  destruct (2 <? sp_length _)%nat eqn:L.
  2: { injection M as <-. elim P. exact P0. }
  apply Nat.ltb_lt in L. destruct (ml_start t _ _ _ _ O2 Z) as [[q' ->]|[->| ->]].
  - change (str "/*" ++ q') with (0x2F%N :: 0x2A%N :: q'). rewrite !toks_cons. eexists _, _, _. reflexivity.
  - exfalso. rewrite (since_eq t _ _ _ T) in L. unfold passed in L. rewrite firstn_nil, app_nil_r in L.
    cbn [sp_length span_env ErrAt.E sp_start sp_end] in L. lia.
  - exfalso. rewrite (since_eq t _ _ _ T), byte_len_app in L. cbn [sp_length span_env ErrAt.E sp_start sp_end] in L.
    assert (byte_len (passed (str "/") (l_rem e0)) <= 1) as X.
    { unfold passed. destruct (l_rem e0) as [|n]; cbn; lia. }
    lia.
Qed.

Lemma ml_not_begin c (ts : toks) : c <> 0x2A%N -> ml ts -> exists e, r_out (begin_comment c ts) = Err e.
Proof.
  intros N (s & s' & ts' & ->). unfold begin_comment, p_ignore_then, p_then.
  assert (exists e, r_out (p_ignored (p_just c) ((0x2A%N, s') :: ts')) = Err e) as [e X].
  { unfold p_ignored. cbn [p_just]. destruct (0x2A =? c)%N eqn:Y; [apply N.eqb_eq in Y; congruence|].
    eexists. apply map_err_out. cbn [p_just]. rewrite Y. reflexivity. }
  destruct (bind_fails (p_map_err with_no_expected (p_just 0x2F%N)) (fun _ => p_ignored (p_just c)) ((0x2F%N, s) :: (0x2A%N, s') :: ts')
    0x2F%N ((0x2A%N, s') :: ts') None e eq_refl X) as [e' Y].
  exists e'. apply map_err_out, Y.
Qed.

Definition is_c (x : char) : char -> bool := fun c => (c =? x)%N.

Lemma ml_first (ts : toks) : ml ts -> first (is_c 0x2F%N) ts.
Proof. intros (s & s' & ts' & ->). exists 0x2F%N, s, ((0x2A%N, s') :: ts'). auto. Qed.

Lemma needs_begin c : needs (is_c 0x2F%N) (begin_comment c).
Proof. unfold begin_comment. apply needs_ignore_then, needs_map_err; [apply spans_no|]. apply needs_just. reflexivity. Qed.

Lemma needs_comment : needs (is_c 0x2F%N) comment.
Proof. apply needs_ignored, needs_then, needs_begin. Qed.

Definition is_nl (c : char) : bool :=
  ((c =? 0x0D) || (c =? 0x0A) || (c =? 0x0C) || (c =? 0x85) || (c =? 0x2028) || (c =? 0x2029))%N.

Lemma needs_newline : needs is_nl newline.
Proof.
  unfold newline. apply needs_map_err; [apply spans_kind|]. apply needs_ignored.
  repeat first [apply needs_or | apply needs_just; reflexivity].
  apply needs_map, needs_opt; apply needs_just; reflexivity.
Qed.

Lemma neat_ml : neat nowhere ml_comment.
Proof.
  intros ts a rest alt W O. unfold ml_comment in O. revert O. set (k := S (List.length ts)). clearbody k. intros O.
  eapply (neat_map_err_with_span t nowhere ml_comment_err (ml_comment_rec k)); [|exact W|exact O].
  apply neat_pl, b_ml_rec, pl_place.
Qed.

Lemma neat_ws : neat nowhere ws.
Proof.
  unfold ws. apply neat_map_err, neat_or_quiet.
  - apply quiet_ignored, quiet_repeat, quiet_ignored, quiet_filter.
  - apply neat_pl. apply l_ignored, l_repeat; [apply pl_place|apply b_ws_char, pl_place].
  - apply neat_ml.
  - intros ts e a rest alt W O _. eapply err_pl; [|exact W|exact O].
    apply l_ignored, l_repeat; [apply pl_place|apply b_ws_char, pl_place].
Qed.

Lemma stuck_ws (ts : toks) : wt ts -> stuck ws ts -> ml ts.
Proof.
  intros W H. unfold ws in H. apply stuck_map_err in H; [|apply spans_kind]. apply stuck_or in H. destruct H as [H|H].
  - exfalso. eapply stuck_pl; [|exact W|exact H]. apply l_ignored, l_repeat; [apply pl_place|apply b_ws_char, pl_place].
  - apply stuck_ml; assumption.
Qed.

Lemma or_fails {A} (p k : parser A) (ts : toks) : (exists e, r_out (p ts) = Err e) -> (exists e, r_out (k ts) = Err e) ->
  exists e, r_out (p_or p k ts) = Err e.
Proof.
  intros [e1 H1] [e2 H2]. destruct (p_or_cases p k ts) as
    [(a & r & al & He & Ho & X)
    |[D [(a & r & al & alt' & c & Ho & He & M & X)
        |[(a & r & al & alt' & c & Ho & M & X)
         |(ea & eb & Ha & Hb & [[X _]|[[X _]|(e' & c & M & Le & X)]])]]]]; try congruence; rewrite X; cbn; eauto.
Qed.

Lemma ml_not_comment (ts : toks) : ml ts -> exists e, r_out (comment ts) = Err e.
Proof.
  intros M. destruct (ml_not_begin 0x2F%N ts) as [e O]; [discriminate|exact M|]. exists e.
  apply map_err_out. apply bind_fails1, O.
Qed.

Lemma ml_not_newline (ts : toks) : wt ts -> ml ts -> exists e, r_out (newline ts) = Err e.
Proof.
  intros W M. destruct (needs_newline ts W) as (e & O & _); [|eauto].
  apply (apart (is_c 0x2F%N) is_nl); [|apply ml_first, M]. intros c X. apply N.eqb_eq in X. subst. discriminate.
Qed.

Lemma neat_esc_line : neat nowhere esc_line.
Proof.
  unfold esc_line. apply (neat_ignore_then (stuck ws)).
  - apply l_ignore_then; [apply from_place|apply l_just, from_place|apply l_repeated; [apply from_place|apply low_ws]].
  - apply (neat_ignore_then nowhere); [apply l_just, from_place|apply neat_pl, l_just, pl_place| |apply blocks_nowhere].
    apply neat_repeat_nowhere; [apply low_ws|apply neat_ws].
  - apply neat_pl, l_or; [apply pl_place|apply b_comment, pl_place|apply b_newline, pl_place].
  - intros ts W S. apply stuck_ws in S; [|exact W]. apply or_fails; [apply ml_not_comment, S|apply ml_not_newline; assumption].
Qed.

Lemma needs_esc_line : needs (is_c 0x5C%N) esc_line.
Proof. apply needs_ignore_then, needs_ignore_then, needs_just. reflexivity. Qed.

Lemma stuck_node_space (ts : toks) : wt ts -> stuck node_space ts -> ml ts \/ first (is_c 0x5C%N) ts.
Proof.
  intros W H. apply stuck_or in H. destruct H as [H|H]; [left; apply stuck_ws; assumption|right].
  eapply needs_stuck; [apply needs_esc_line|exact W|exact H].
Qed.

Lemma neat_node_space : neat nowhere node_space.
Proof.
  apply neat_or_quiet; [apply quiet_ws|apply neat_ws|apply neat_esc_line|].
  intros ts e a rest alt W O O2. destruct (plain_dec t e) as [P|P]; [exact P|exfalso].
  assert (ml ts) as M by (apply stuck_ws; [exact W|exists e; auto]).
  pose proof (needs_ok t _ _ _ _ _ _ needs_esc_line W O2) as F.
  eapply (apart (is_c 0x2F%N) (is_c 0x5C%N)); [|apply ml_first, M|exact F].
  intros c X Y. apply N.eqb_eq in X, Y. subst. discriminate.
Qed.

Lemma stuck_line_space (ts : toks) : wt ts -> stuck line_space ts -> ml ts.
Proof.
  intros W H. apply stuck_or in H. destruct H as [H|H]; [apply stuck_or in H; destruct H as [H|H]|].
  - exfalso. eapply stuck_pl; [|exact W|exact H]. apply b_newline, pl_place.
  - apply stuck_ws; assumption.
  - exfalso. eapply stuck_pl; [|exact W|exact H]. apply b_comment, pl_place.
Qed.

Lemma neat_line_space : neat nowhere line_space.
Proof.
  apply neat_or_quiet; [apply quiet_or; [apply quiet_newline|apply quiet_ws]| |apply neat_pl, b_comment, pl_place|].
  - apply neat_or_quiet; [apply quiet_newline|apply neat_pl, b_newline, pl_place|apply neat_ws|].
    intros ts e a rest alt W O _. eapply err_pl; [|exact W|exact O]. apply b_newline, pl_place.
  - intros ts e a rest alt W O O2. destruct (plain_dec t e) as [P|P]; [exact P|exfalso].
    assert (stuck (p_or newline ws) ts) as S by (exists e; auto).
    apply stuck_or in S. destruct S as [S|S].
    + eapply stuck_pl; [|exact W|exact S]. apply b_newline, pl_place.
    + apply stuck_ws in S; [|exact W]. destruct (ml_not_comment ts S) as [e' Y]. congruence.
Qed.

Lemma neat_spaces : neat (stuck node_space) (p_repeated node_space).
Proof. apply neat_repeat_nowhere; [apply low_node_space|apply neat_node_space]. Qed.

Lemma neat_spaces1 : neat (stuck node_space) (p_repeat 1 None node_space).
Proof. apply neat_repeat_nowhere; [apply low_node_space|apply neat_node_space]. Qed.

Lemma neat_lines : neat (stuck line_space) (p_repeated line_space).
Proof. apply neat_repeat_nowhere; [apply low_line_space|apply neat_line_space]. Qed.

(** Where space cannot be read, nothing but a comment that is not closed or a
    line that is not continued follows. *)
Definition sp_first (c : char) : bool := (is_c 0x2F c || is_c 0x5C c)%N.

Lemma stuck_space_first (ts : toks) : wt ts -> stuck node_space ts -> first sp_first ts.
Proof.
  intros W S. apply stuck_node_space in S; [|exact W]. destruct S as [S|S].
  - apply ml_first in S. destruct S as (c & s & ts' & -> & F). exists c, s, ts'. unfold sp_first. rewrite F. auto.
  - destruct S as (c & s & ts' & -> & F). exists c, s, ts'. unfold sp_first. rewrite F, orb_true_r. auto.
Qed.

(** ** Words *)

Definition wordb (c : char) : bool :=
  (is_id_sans_sign_dig c || (c =? 0x2B) || (c =? 0x2D) || is_digit 10 c || (c =? 0x22))%N.

Lemma needs_raw : needs (is_c 0x72%N) raw_string.
Proof. unfold raw_string. apply needs_map, needs_bind, needs_then_ignore, needs_ignore_then, needs_just. reflexivity. Qed.

Lemma needs_escaped : needs (is_c 0x22%N) escaped_string.
Proof. unfold escaped_string. apply needs_ignore_then, needs_just. reflexivity. Qed.

Lemma c_word x : wordb x = true -> forall c, is_c x c = true -> wordb c = true.
Proof. intros H c X. apply N.eqb_eq in X. subst. exact H. Qed.

Lemma needs_string : needs wordb string_.
Proof.
  unfold string_. apply needs_or; (eapply needs_more; [|first [apply needs_raw|apply needs_escaped]]); apply c_word; reflexivity.
Qed.

Lemma needs_keyword : needs wordb keyword.
Proof.
  unfold keyword. apply needs_choice.
  foralls; apply needs_map, needs_map_err; try apply spans_token; apply needs_just_str; reflexivity.
Qed.

Lemma needs_digit : needs wordb (digit 10).
Proof. apply needs_filter. intros c H. unfold wordb. rewrite H, !orb_true_r. reflexivity. Qed.

Lemma needs_sign : needs wordb (p_or (p_just 0x2D%N) (p_just 0x2B%N)).
Proof. apply needs_or; apply needs_just; reflexivity. Qed.

Lemma needs_number : needs wordb number.
Proof.
  unfold number. apply needs_or.
  - unfold radix_number. apply needs_map, needs_then. apply needs_map, needs_opt; [apply needs_sign|apply needs_just; reflexivity].
  - unfold decimal_number. apply needs_map, needs_map, needs_then, needs_map, needs_then, needs_map, needs_then, needs_map.
    apply needs_opt; [apply needs_sign|apply needs_digit].
Qed.

Lemma needs_plus_minus : needs wordb plus_minus.
Proof. apply needs_or; apply needs_just; reflexivity. Qed.

Lemma needs_bare : needs wordb bare_ident.
Proof.
  unfold bare_ident. apply needs_try_map, needs_choice. foralls.
  - apply needs_map, needs_then, needs_plus_minus.
  - apply needs_repeat; [lia|discriminate|apply needs_plus_minus].
  - apply needs_map, needs_then, needs_map_err; [apply spans_kind|]. apply needs_filter.
    intros c H. unfold wordb. rewrite H. reflexivity.
Qed.

Lemma needs_ident : needs wordb ident.
Proof.
  unfold ident. apply needs_try_map, needs_choice.
  foralls; apply needs_map; [apply needs_number|apply needs_bare|apply needs_string].
Qed.

Lemma needs_literal : needs wordb literal_.
Proof.
  unfold literal_. apply needs_choice.
  foralls; [apply needs_map, needs_string|apply needs_keyword|apply needs_number].
Qed.

Lemma neat_raw : neat nowhere raw_string.
Proof.
  unfold raw_string. apply neat_map, (neat_bind t nowhere); [apply b_raw_open, from_place|apply neat_pl, b_raw_open, pl_place| |].
  - intros n. apply neat_map_err_with_span, neat_pl, b_raw_rest, pl_place.
  - intros n. apply blocks_nowhere.
Qed.

Lemma neat_recover {A} G f (x : A) p : neat G p -> neat G (p_recover_skip_until f x p).
Proof.
  intros N ts a rest alt W O. unfold p_recover_skip_until in O. destruct (r_out (p ts)) as [a' r al|e] eqn:X.
  - rewrite X in O. injection O as <- <- <-. eapply N; eassumption.
  - destruct (skip_to f ts); cbn in O; [|congruence]. injection O as <- <- <-. left. exact I.
Qed.

Lemma neat_esc_char : neat nowhere esc_char.
Proof.
  unfold esc_char. apply neat_or_quiet; [apply quiet_filter_map|apply neat_pl, b_simple, pl_place| |].
  - apply (neat_ignore_then nowhere); [apply l_just, from_place|apply neat_pl, l_just, pl_place| |apply blocks_nowhere].
    apply neat_recover, neat_try_map, neat_pl, b_code_digits, pl_place.
  - intros ts e a rest alt W O _. eapply err_pl; [|exact W|exact O]. apply b_simple, pl_place.
Qed.

Definition string_char : parser char :=
  p_or (p_filter (fun c => negb (c =? 0x22)%N && negb (c =? 0x5C)%N)) (p_ignore_then (p_just 0x5C%N) esc_char).

Lemma low_string_char : okl from string_char.
Proof.
  unfold string_char. apply l_or; [apply from_place|apply l_filter, from_place|].
  apply l_ignore_then; [apply from_place|apply l_just, from_place|apply low_esc_char].
Qed.

Lemma neat_string_char : neat nowhere string_char.
Proof.
  unfold string_char. apply neat_or_quiet; [apply quiet_filter|apply neat_pl, l_filter, pl_place| |].
  - apply (neat_ignore_then nowhere); [apply l_just, from_place|apply neat_pl, l_just, pl_place|apply neat_esc_char|apply blocks_nowhere].
  - intros ts e a rest alt W O _. eapply err_pl; [|exact W|exact O]. apply l_filter, pl_place.
Qed.

Lemma needs_string_char : needs (fun c => negb (c =? 0x22)%N) string_char.
Proof.
  unfold string_char. apply needs_or; [apply needs_filter; intros c H; apply andb_prop in H; apply H|].
  apply needs_ignore_then, needs_just. reflexivity.
Qed.

Lemma neat_escaped : neat nowhere escaped_string.
Proof.
  unfold escaped_string.
  apply (neat_ignore_then nowhere); [apply l_just, from_place|apply neat_pl, l_just, pl_place| |apply blocks_nowhere].
  apply neat_map_err_with_span. fold string_char.
  apply (neat_then_ignore (stuck string_char)).
  - apply l_repeated; [apply from_place|apply low_string_char].
  - apply neat_repeat_nowhere; [apply low_string_char|apply neat_string_char].
  - apply neat_pl, l_just, pl_place.
  - intros ts W S. assert (needs (is_c 0x22%N) (p_just 0x22%N)) as H by (apply needs_just; reflexivity).
    destruct (H ts W) as (e & O & _); [|eauto].
    pose proof (needs_stuck t _ _ _ needs_string_char W S) as F.
    revert F. apply apart. intros c X Y. unfold is_c in Y. rewrite Y in X. discriminate.
Qed.

Lemma neat_string : neat nowhere string_.
Proof.
  unfold string_. apply (neat_or_apart _ _ _ _ _ needs_raw needs_escaped); [|apply neat_raw|apply neat_escaped].
  intros c X Y. apply N.eqb_eq in X, Y. subst. discriminate.
Qed.

Lemma neat_bare : neat nowhere bare_ident.
Proof. unfold bare_ident. apply neat_try_map, neat_pl, b_bare_text, pl_place. Qed.

Lemma neat_number : neat nowhere number.
Proof. apply neat_pl, b_number, pl_place. Qed.

Lemma neat_ident : neat nowhere ident.
Proof.
  unfold ident. apply neat_try_map, neat_choice. foralls; apply neat_map; [apply neat_number|apply neat_bare|apply neat_string].
Qed.

Lemma neat_literal : neat nowhere literal_.
Proof.
  unfold literal_. apply neat_choice.
  foralls; [apply neat_map, neat_string|apply neat_pl, b_keyword, pl_place|apply neat_number].
Qed.

Lemma neat_type_name : neat nowhere type_name.
Proof.
  unfold type_name, p_delimited. apply neat_map, (neat_then_ignore nowhere).
  - apply l_ignore_then; [apply from_place|apply l_just, from_place|apply low_ident].
  - apply (neat_ignore_then nowhere); [apply l_just, from_place|apply neat_pl, l_just, pl_place|apply neat_ident|apply blocks_nowhere].
  - apply neat_pl, l_just, pl_place.
  - apply blocks_nowhere.
Qed.

Lemma needs_type_name : needs (is_c 0x28%N) type_name.
Proof. apply needs_map, needs_delimited, needs_just. reflexivity. Qed.

Lemma neat_type_name_value : neat nowhere type_name_value.
Proof.
  unfold type_name_value. apply neat_map, neat_then_both; [apply l_spanned, low_type_name|apply neat_spanned, neat_type_name|apply neat_spanned, neat_literal].
Qed.

Lemma needs_type_name_value : needs (is_c 0x28%N) type_name_value.
Proof. apply needs_map, needs_then, needs_spanned, needs_type_name. Qed.

Lemma word_not x : wordb x = false -> forall c, is_c x c = true -> wordb c = true -> False.
Proof. intros H c X. apply N.eqb_eq in X. subst. congruence. Qed.

Lemma neat_value : neat nowhere value_.
Proof.
  unfold value_. eapply neat_or_apart; [apply needs_type_name_value|apply needs_map, needs_spanned, needs_literal| | |].
  - apply word_not. reflexivity.
  - apply neat_type_name_value.
  - apply neat_map, neat_spanned, neat_literal.
Qed.

Definition equals : toks -> Prop := first (is_c 0x3D%N).

Lemma neat_opt_value : neat equals opt_value.
Proof.
  unfold opt_value. apply neat_or_not.
  - apply (neat_ignore_then nowhere); [apply l_just, from_place|apply neat_pl, l_just, pl_place|apply neat_any, neat_value|apply blocks_nowhere].
  - intros ts W S. eapply needs_stuck; [|exact W|exact S]. apply needs_ignore_then, needs_just. reflexivity.
Qed.

Lemma neat_inner : neat equals prop_or_arg_inner.
Proof.
  unfold prop_or_arg_inner. apply neat_choice. foralls.
  - apply neat_try_map, neat_then_both; [apply l_spanned, low_literal|apply neat_spanned, neat_literal|apply neat_opt_value].
  - apply neat_map, neat_validate, neat_then_both; [apply l_spanned, low_bare_ident|apply neat_spanned, neat_bare|apply neat_opt_value].
  - apply neat_map, neat_any, neat_type_name_value.
Qed.

Definition itemb (c : char) : bool := (wordb c || is_c 0x28 c)%N.

Lemma needs_inner : needs itemb prop_or_arg_inner.
Proof.
  unfold prop_or_arg_inner. apply needs_choice. foralls.
  - apply needs_try_map, needs_then, needs_spanned. eapply needs_more; [|apply needs_literal]. intros c H. unfold itemb. rewrite H. reflexivity.
  - apply needs_map, needs_validate, needs_then, needs_spanned. eapply needs_more; [|apply needs_bare]. intros c H. unfold itemb. rewrite H. reflexivity.
  - apply needs_map. eapply needs_more; [|apply needs_type_name_value]. intros c H. unfold itemb. rewrite H, orb_true_r. reflexivity.
Qed.

Lemma item_not x : itemb x = false -> forall c, is_c x c = true -> itemb c = true -> False.
Proof. intros H c X. apply N.eqb_eq in X. subst. congruence. Qed.

Lemma sp_item c : sp_first c = true -> itemb c = true -> False.
Proof. unfold sp_first. intros X. apply orb_prop in X. destruct X as [X|X]; revert X; apply item_not; reflexivity. Qed.

Lemma low_begin_spaces : okl from (p_ignore_then (begin_comment 0x2D%N) (p_repeated node_space)).
Proof. apply l_ignore_then; [apply from_place|apply b_begin_comment, from_place|apply l_repeated; [apply from_place|apply low_node_space]]. Qed.

Lemma neat_begin_spaces : neat (stuck node_space) (p_ignore_then (begin_comment 0x2D%N) (p_repeated node_space)).
Proof.
  apply (neat_ignore_then nowhere); [apply b_begin_comment, from_place|apply neat_pl, b_begin_comment, pl_place|apply neat_spaces|apply blocks_nowhere].
Qed.

Lemma blocks_spaces {A} f (p : parser A) : needs f p -> (forall c, sp_first c = true -> f c = true -> False) -> blocks (stuck node_space) p.
Proof.
  intros N D ts W S. apply stuck_space_first in S; [|exact W]. destruct (N ts W) as (e & O & _); [|eauto].
  eapply apart; [exact D|exact S].
Qed.

Lemma neat_prop_or_arg : neat equals prop_or_arg.
Proof.
  unfold prop_or_arg. eapply (neat_or_apart (is_c 0x2F%N) itemb).
  - apply needs_map, needs_ignore_then, needs_ignore_then, needs_begin.
  - apply needs_inner.
  - apply item_not. reflexivity.
  - apply neat_map, (neat_ignore_then (stuck node_space)); [apply low_begin_spaces|apply neat_begin_spaces|apply neat_inner|].
    apply (blocks_spaces itemb); [apply needs_inner|apply sp_item].
  - apply neat_inner.
Qed.

End OrderNeat.
