(** The errors emitted by nodes and by lists of nodes. *)

From Coq Require Import NArith PeanoNat List Bool String Lia.
From Verif Require Import Chars Ast Errors Chumsky Spans Grammar Safe GrammarSafe GrammarNear SpanProps ErrSpec ErrAt ErrGrammar
  OrderSpec OrderCalc OrderLow OrderStuck OrderNeat OrderNode OrderEmit OrderText.
Import ListNotations.
Local Open Scope list_scope.

Local Strategy 100 [p_filter p_just p_just_str p_end p_filter_map p_map p_ignored p_map_with_span p_map_err p_map_err_with_span
  p_try_map p_validate p_bind p_then p_ignore_then p_then_ignore p_delimited p_or p_choice p_or_not p_rewind p_repeat p_repeated
  p_exactly p_take_until p_recover_skip_until p_separated p_spanned ml_comment_rec nodes_rec span_since ErrAt.E].

Section OrderList.
Variable t : text.

#[local] Hint Extern 0 (env span) => exact (ErrAt.E t) : typeclass_instances.

Notation parser := (Chumsky.parser span).
Notation located := (Chumsky.located span).
Notation toks := (Chumsky.toks span).
Notation pos_rem := (OrderCalc.pos_rem t).
Notation pos := (OrderCalc.pos t).
Notation wt := (OrderCalc.wt t).
Notation from := (OrderCalc.from t).
Notation pl := (OrderCalc.pl t).
Notation plain := (OrderCalc.plain t).
Notation okl := (OrderCalc.okl t).
Notation neat := (OrderStuck.neat t).
Notation blocks := (OrderStuck.blocks t).
Notation stuck := (OrderStuck.stuck t).
Notation needs := (OrderStuck.needs t).
Notation sound := (OrderEmit.sound t).
Notation mute := (OrderEmit.mute t).
Notation ended := (OrderEmit.ended t).

Lemma then_errs {A B} (p : parser A) (k : parser B) (ts : toks) a r1 al : r_out (p ts) = Ok a r1 al ->
  r_errs (p_then p k ts) = r_errs (p ts) ++ r_errs (k r1).
Proof. exact (bind_errs p (fun _ => k) ts _ _ _). Qed.

Lemma then_errs_err {A B} (p : parser A) (k : parser B) (ts : toks) e : r_out (p ts) = Err e ->
  r_errs (p_then p k ts) = r_errs (p ts).
Proof. exact (bind_errs_err p (fun _ => k) ts _). Qed.

Lemma map_errs {A B} (f : A -> B) (p : parser A) (ts : toks) : r_errs (p_map f p ts) = r_errs (p ts).
Proof. reflexivity. Qed.

Lemma spanned_errs {A} (p : parser A) (ts : toks) : r_errs (p_spanned p ts) = r_errs (p ts).
Proof. reflexivity. Qed.

Lemma then_ignore_fail_errs {A B} (p : parser A) (k : parser B) (ts : toks) e : r_out (p ts) = Err e ->
  r_errs (p_then_ignore p k ts) = r_errs (p ts).
Proof. exact (bind_errs_err p (fun _ => k) ts _). Qed.

Lemma then_fails1 {A B} (p : parser A) (k : parser B) (ts : toks) e : r_out (p ts) = Err e -> r_out (p_then p k ts) = Err e.
Proof. exact (bind_fails1 p (fun _ => k) ts e). Qed.

Lemma then_fails {A B} (p : parser A) (k : parser B) (ts : toks) a r al e : r_out (p ts) = Ok a r al -> r_out (k r) = Err e -> fails (p_then p k) ts.
Proof. exact (bind_fails p (fun _ => k) ts a r al e). Qed.

Lemma map_ok {A B} (f : A -> B) (p : parser A) (ts : toks) a r al : r_out (p ts) = Ok a r al -> r_out (p_map f p ts) = Ok (f a) r al.
Proof. intros O. unfold p_map. rewrite O. reflexivity. Qed.

(** ** Items of a node *)

Notation item := (OrderNode.item t).

Lemma blocks_item : blocks (stuck node_space) prop_or_arg.
Proof.
  intros ts W S. pose proof (stuck_node_space t ts W S) as S2. destruct S2 as [M|F].
  - unfold prop_or_arg. apply or_fails.
    + apply map_fails, map_fails. destruct (ml_not_begin t 0x2D%N ts) as [e O]; [discriminate|exact M|].
      exists e. apply bind_fails1, map_err_out, bind_fails1, O.
    + apply (needs_fails t itemb); [apply needs_inner|exact W|]. apply ml_first in M. revert M. apply apart. apply item_not. reflexivity.
  - eapply prop_fails; [exact W|exact F|]. intros c X. apply N.eqb_eq in X. subst. discriminate.
Qed.

Lemma low_spaces1 : okl from (p_repeat 1 None node_space).
Proof. apply l_repeat; [apply from_place|apply low_node_space]. Qed.

Lemma sound_item : sound item.
Proof.
  unfold OrderNode.item. apply (sound_ignore_then t (stuck node_space)).
  - apply low_spaces1.
  - apply neat_spaces1.
  - apply quiet_sound; [apply low_spaces1|apply quiet_repeat, quiet_node_space].
  - apply sound_prop_or_arg.
  - apply blocked_errs; [apply mute_prop_or_arg|apply blocks_item].
Qed.

Lemma sound_items : sound node_items.
Proof.
  unfold node_items. change (p_ignore_then (p_repeat 1 None node_space) prop_or_arg) with item.
  apply (sound_repeated t equals).
  - apply low_item_.
  - unfold OrderNode.item. apply (neat_ignore_then t (stuck node_space)); [apply low_spaces1|apply neat_spaces1|apply neat_prop_or_arg|apply blocks_item].
  - intros ts W F. apply map_fails. destruct (needs_fails t f_ns (p_repeat 1 None node_space) ts) as [e O].
    + apply needs_repeat; [lia|discriminate|apply needs_node_space].
    + exact W.
    + revert F. apply apart. intros c X Y. apply N.eqb_eq in X. subst. discriminate.
    + exists e. apply bind_fails1, O.
  - apply sound_item.
Qed.

Lemma mute_repeated {A} (p : parser A) : mute (p_repeated p).
Proof. intros ts e W O. destruct (repeated_ok p ts) as (a & r & al & X). congruence. Qed.

(** ** The head of a node *)

Notation node_head := (OrderNode.node_head t).

Lemma ident_paren (ts : toks) : wt ts -> first (is_c 0x28%N) ts -> r_errs (p_spanned ident ts) = [].
Proof.
  apply blocked_errs; [apply mute_spanned, mute_ident|]. intros ts' W F.
  apply (needs_fails t wordb); [apply needs_spanned, needs_ident|exact W|]. revert F. apply apart. apply word_not. reflexivity.
Qed.

Lemma low_head1 : okl from (p_or_not (p_spanned type_name)).
Proof. apply l_or_not, l_spanned, low_type_name. Qed.

Lemma neat_head1 : neat (first (is_c 0x28%N)) (p_or_not (p_spanned type_name)).
Proof.
  apply neat_or_not; [apply neat_any, neat_spanned, neat_type_name|].
  intros ts W S. eapply needs_stuck; [|exact W|exact S]. apply needs_spanned, needs_type_name.
Qed.

Lemma sound_head1 : sound (p_or_not (p_spanned type_name)).
Proof. apply sound_or_not; [apply l_spanned, low_type_name|apply sound_spanned, sound_type_name]. Qed.

Lemma sound_head : sound node_head.
Proof.
  unfold OrderNode.node_head. apply (sound_then t (first (is_c 0x28%N))); [apply low_head1|apply neat_head1|apply sound_head1| |apply ident_paren].
  apply sound_spanned, sound_ident.
Qed.

Lemma ended_head : ended node_head.
Proof.
  unfold OrderNode.node_head. apply (ended_then t (first (is_c 0x28%N))); [apply low_head1|apply neat_head1|apply sound_head1| | |apply ident_paren].
  - apply mute_ended; [apply low_head1|apply or_not_mute].
  - apply mute_ended; [apply l_spanned, low_ident|apply mute_spanned, mute_ident].
Qed.

Lemma quiet_slashdash : quiet (Sp := span) slashdash.
Proof.
  unfold slashdash. apply quiet_or_not, quiet_then_ignore; [apply quiet_begin_comment|apply quiet_repeated, quiet_node_space].
Qed.

Notation node_end := (OrderNode.node_end t).

Lemma low_end : okl from node_end.
Proof. unfold OrderNode.node_end. apply l_then; [apply from_place|apply low_spaces|apply b_node_terminator, from_place]. Qed.

Lemma quiet_node_end : quiet (Sp := span) node_end.
Proof. unfold OrderNode.node_end. apply quiet_then; [apply quiet_repeated, quiet_node_space|apply quiet_node_terminator]. Qed.

(** ** Nodes *)

Definition parts (ts : toks) (errs : list located) (rest : toks) (alt : option located) : Prop :=
  (opt plain alt \/ OrderNode.no_brace_next rest)
  /\ (~ OrderNode.no_brace_next rest -> inside (pos ts) (pos rest) errs)
  /\ (forall e3 ef c, plain e3 -> l_rem e3 = List.length rest -> lmax_opt e3 alt = (ef, c) -> inside (pos ts) (lo t ef) errs).

(** Like [sound], for a list of nodes, where an error may be emitted while the
    list ends before it. *)
Definition ends {A} (p : parser A) : Prop := forall ts a rest alt, wt ts -> r_out (p ts) = Ok a rest alt ->
  parts ts (r_errs (p ts)) rest alt.

Section Children.
Variable nodes : parser (list (snode span)).
Hypothesis L : okl from nodes.
Hypothesis LB : okl from (braced_nodes nodes).
Hypothesis F : ends nodes.

Lemma neat_nodes : neat no_brace_next nodes.
Proof. intros ts a rest alt W O. apply (F ts a rest alt W O). Qed.

Lemma brace_next (ts : toks) : first (is_c 0x7D%N) ts -> ~ no_brace_next ts.
Proof. apply apart. intros c X Y. unfold is_c in X. rewrite X in Y. discriminate. Qed.

Lemma sound_closed : sound (p_then_ignore nodes (p_just 0x7D%N)).
Proof.
  intros ts a rest alt W O. pose proof O as O'. unfold p_then_ignore in O'. apply map_rest in O'. destruct O' as [ab [O' _]].
  unfold p_then in O'. apply then_rest in O'. destruct O' as (r1 & al1 & al2 & O1 & O2 & M).
  rewrite (then_ignore_errs _ _ _ _ _ _ O1), (quiet_just 0x7D%N r1), app_nil_r.
  destruct (ok_wt _ _ _ _ _ _ L W O1) as [W1 _].
  destruct (F _ _ _ _ W O1) as (P & I1 & _).
  assert (first (is_c 0x7D%N) r1) as B.
  { eapply (needs_ok t); [|exact W1|exact O2]. apply needs_just. reflexivity. }
  apply brace_next in B. specialize (I1 B). destruct P as [P|P]; [|contradiction].
  assert (okl from (p_just 0x7D%N)) as LJ by apply l_just, from_place.
  split; [eapply inside_snoc; [exact I1|eapply ok_pos; eassumption]|].
  rewrite M. destruct (merge_alts al1 al2) as [al c] eqn:X. cbn [fst]. eapply merge_alts_with; [apply good_respects|exact X| |].
  - destruct al1; [left; exact P|exact I].
  - pose proof (low_alt t _ _ _ _ _ LJ W1 O2) as Z. destruct al2 as [l|]; [|exact I]. right.
    eapply inside_snoc; [exact I1|]. apply lo_from, Z.
Qed.

Lemma sound_braced : sound (braced_nodes nodes).
Proof. unfold braced_nodes. apply sound_after_just, sound_map_err_with_span, sound_closed. Qed.

Lemma ignore_then_fail_errs {A B} (p : parser A) (k : parser B) (ts : toks) e : r_out (p ts) = Err e ->
  r_errs (p_ignore_then p k ts) = r_errs (p ts).
Proof. intros O. unfold p_ignore_then, p_map, p_then. cbn [r_errs]. exact (bind_errs_err p (fun _ => k) ts _ O). Qed.

Lemma unopened (ts : toks) : wt ts -> stuck node_space ts -> r_errs (p_spanned (braced_nodes nodes) ts) = [].
Proof.
  intros W S. rewrite spanned_errs. unfold braced_nodes.
  apply (stuck_space_first t) in S; [|exact W].
  destruct (just_fails t 0x7B%N ts W) as [e O].
  { revert S. apply apart. intros c X Y. apply N.eqb_eq in Y. subst. discriminate. }
  rewrite (ignore_then_fail_errs _ _ _ _ O). apply quiet_just.
Qed.

Lemma neat_block_start : neat (stuck node_space) (block_start t).
Proof.
  unfold block_start. apply neat_map.
  apply (neat_bind_on t (stuck node_space)); [apply low_spaces|apply neat_spaces|intros _; apply neat_slashdash|].
  intros ts _ o rest alt W S O. destruct (slashdash_cases t ts W) as [(r & r2' & a' & al' & o' & al2' & D & _ & _ & O' & S')|(e & B & _ & S')].
  - exfalso. apply stuck_node_space in S; [|exact W]. destruct D as (s & s' & ->). destruct S as [(x & y & z & X)|(x & y & z & X & Y)].
    + congruence.
    + injection X as <- <- <-. discriminate.
  - rewrite S' in O. injection O as <- <- <-. exact S.
Qed.

Lemma low_children : okl from (opt_children nodes).
Proof. unfold opt_children. apply l_or_not, l_then; [apply from_place|apply low_block_start|apply l_spanned, LB]. Qed.

Lemma sound_children : sound (opt_children nodes).
Proof.
  unfold opt_children. fold (block_start t). apply sound_or_not.
  - apply l_then; [apply from_place|apply low_block_start|apply l_spanned, LB].
  - apply (sound_then t (stuck node_space)).
    + apply low_block_start.
    + apply neat_block_start.
    + apply quiet_sound; [apply low_block_start|]. unfold block_start.
      apply quiet_ignore_then; [apply quiet_repeated, quiet_node_space|apply quiet_slashdash].
    + apply sound_spanned, sound_braced.
    + apply unopened.
Qed.

Lemma mute_children : mute (opt_children nodes).
Proof. unfold opt_children. apply or_not_mute. Qed.

Lemma blocked_children_errs (ts : toks) : wt ts -> blocked t ts -> r_errs (opt_children nodes ts) = [].
Proof.
  intros W B. destruct (or_not_ok (p_then (block_start t) (p_spanned (braced_nodes nodes))) ts) as (o & rest & alt & O).
  exact (proj2 (proj2 (proj2 (blocked_children t nodes ts o rest alt W B O)))).
Qed.

Definition front : parser (_ * _) := p_then node_head node_items.

Lemma low_front : okl from front.
Proof. apply l_then; [apply from_place|apply low_head|apply low_node_items]. Qed.

Lemma neat_front : neat (blocked t) front.
Proof. apply neat_then_both; [apply low_head|apply neat_head|apply neat_items]. Qed.

Lemma sound_front : sound front.
Proof. apply sound_neat; [apply low_head|apply neat_head|apply sound_head|apply sound_items]. Qed.

Lemma ended_front : ended front.
Proof.
  apply (ended_then t nowhere); [apply low_head|apply neat_head|apply sound_head|apply ended_head| |intros ts _ []].
  apply mute_ended; [apply low_node_items|apply mute_repeated].
Qed.

Definition full : parser (_ * _) := p_then front (opt_children nodes).

Lemma low_full : okl from full.
Proof. apply l_then; [apply from_place|apply low_front|apply low_children]. Qed.

Lemma neat_full : neat (no_end t) full.
Proof.
  apply (neat_bind_on t (blocked t)); [apply low_front|apply neat_front|intros _; apply neat_children; [exact L|exact neat_nodes]|].
  intros ts _ b rest alt W B O. apply (blocked_children t nodes ts b rest alt W B) in O. apply O.
Qed.

Lemma sound_full : sound full.
Proof. apply (sound_then t (blocked t)); [apply low_front|apply neat_front|apply sound_front|apply sound_children|apply blocked_children_errs]. Qed.

Lemma ended_full : ended full.
Proof.
  apply (ended_then t (blocked t)); [apply low_front|apply neat_front|apply sound_front|apply ended_front| |apply blocked_children_errs].
  apply mute_ended; [apply low_children|apply mute_children].
Qed.

Lemma sound_node : sound (node_ nodes).
Proof.
  unfold node_. fold node_head. fold front. fold full. fold node_end. apply sound_map, (sound_then_ignore t (no_end t)).
  - apply low_full.
  - apply neat_full.
  - apply sound_full.
  - apply quiet_sound; [apply low_end|apply quiet_node_end].
  - intros ts _ _. apply quiet_node_end.
Qed.

Lemma ended_node : ended (node_ nodes).
Proof.
  unfold node_. fold node_head. fold front. fold full. fold node_end. apply ended_map, ended_map, (ended_then t (no_end t)).
  - apply low_full.
  - apply neat_full.
  - apply sound_full.
  - apply ended_full.
  - apply quiet_ended; [apply low_end|apply quiet_node_end].
  - intros ts _ _. apply quiet_node_end.
Qed.

Lemma low_node_ : okl from (node_ nodes).
Proof. unfold node_. fold node_head. fold front. fold full. fold node_end. apply l_map, l_then_ignore; [apply from_place|apply low_full|apply low_end]. Qed.

(** What is not the start of a node emits nothing. *)
Lemma head_idle (ts : toks) : wt ts -> ~ first nodeb ts -> r_errs (node_head ts) = [].
Proof.
  intros W X. destruct (needs_head t ts W X) as (e & O & _). unfold OrderNode.node_head in O |- *.
  destruct (or_not_ok (p_spanned type_name) ts) as (o & r & al & O1).
  destruct (needs_spanned t (is_c 0x28%N) type_name (needs_type_name t) ts W) as (e1 & E1 & _).
  { intros Y. apply X. destruct Y as (c & s & r' & -> & Y). exists c, s, r'. split; [reflexivity|]. unfold nodeb. rewrite Y. apply orb_true_r. }
  rewrite (then_errs _ _ _ _ _ _ O1).
  destruct (or_not_fail _ _ _ E1) as [Z1 Z2]. rewrite Z2. cbn [app]. rewrite Z1 in O1. injection O1 as <- <- <-.
  destruct (needs_spanned t wordb ident (needs_ident t) ts W) as (e2 & E2 & _).
  { intros Y. apply X. destruct Y as (c & s & r' & -> & Y). exists c, s, r'. split; [reflexivity|]. unfold nodeb. rewrite Y. reflexivity. }
  exact (mute_spanned t _ (mute_ident t) _ _ W E2).
Qed.

Lemma node_idle (ts : toks) : wt ts -> ~ first nodeb ts -> r_errs (p_spanned (node_ nodes) ts) = [].
Proof.
  intros W X. pose proof (head_idle ts W X) as H. destruct (needs_head t ts W X) as (e & O & _).
  assert (r_out (front ts) = Err e) as O1 by (apply then_fails1; exact O).
  assert (r_out (full ts) = Err e) as O2 by (apply then_fails1; exact O1).
  rewrite spanned_errs. unfold node_. fold node_head. fold front. fold full. fold node_end. rewrite map_errs.
  rewrite (then_ignore_fail_errs _ _ _ _ O2). unfold full. rewrite (then_errs_err _ _ _ _ O1). unfold front. rewrite (then_errs_err _ _ _ _ O).
  exact H.
Qed.

Notation entry := (dashed_node t nodes).

Lemma low_entry : okl from entry.
Proof. unfold dashed_node. apply l_then; [apply from_place|apply low_slashdash|apply l_spanned, low_node_]. Qed.

Lemma dash_idle (ts : toks) : wt ts -> stuck node_space ts -> r_errs (p_spanned (node_ nodes) ts) = [].
Proof.
  intros W S. apply node_idle; [exact W|]. apply (stuck_space_first t) in S; [|exact W]. revert S. apply apart, sp_node.
Qed.

Lemma sound_entry : sound entry.
Proof.
  unfold dashed_node. apply (sound_then t (stuck node_space)).
  - apply low_slashdash.
  - apply neat_slashdash.
  - apply quiet_sound; [apply low_slashdash|apply quiet_slashdash].
  - apply sound_spanned, sound_node.
  - apply dash_idle.
Qed.

Lemma ended_entry : ended entry.
Proof.
  unfold dashed_node. apply (ended_then t (stuck node_space)).
  - apply low_slashdash.
  - apply neat_slashdash.
  - apply quiet_sound; [apply low_slashdash|apply quiet_slashdash].
  - apply quiet_ended; [apply low_slashdash|apply quiet_slashdash].
  - apply ended_spanned, ended_node.
  - apply dash_idle.
Qed.

(** Neither does an entry, at other characters or at a comment. *)
Lemma entry_idle (ts : toks) : wt ts -> ~ first nodeb ts -> (exists e, r_out (begin_comment 0x2D%N ts) = Err e) ->
  fails entry ts /\ r_errs (entry ts) = [].
Proof.
  intros W X [e0 B].
  assert (exists e1, r_out (p_then_ignore (begin_comment 0x2D%N) (p_repeated node_space) ts) = Err e1) as [e1 E1].
  { exists e0. apply map_err_out, bind_fails1, B. }
  destruct (or_not_fail _ _ _ E1) as [Z1 Z2]. fold (@slashdash span (ErrAt.E t)) in Z1, Z2.
  unfold dashed_node.
  assert (needs nodeb (p_spanned (node_ nodes))) as N by (apply needs_spanned, needs_node).
  destruct (N ts W X) as (e2 & E2 & _). split.
  - exact (then_fails _ _ _ _ _ _ _ Z1 E2).
  - rewrite (then_errs _ _ _ _ _ _ Z1), Z2. exact (node_idle ts W X).
Qed.

Lemma entry_other (ts : toks) : wt ts -> ~ first entryb ts -> r_errs (entry ts) = [].
Proof.
  intros W X. apply entry_idle; [exact W| |].
  - intros (c & s & r & -> & Y). apply X. exists c, s, r. split; [reflexivity|]. unfold entryb. rewrite Y. reflexivity.
  - apply (needs_fails t (is_c 0x2F%N)); [apply needs_begin|exact W|]. intros (c & s & r & -> & Y). apply X.
    exists c, s, r. split; [reflexivity|]. unfold entryb. rewrite Y. apply orb_true_r.
Qed.

Lemma entry_ml (ts : toks) : wt ts -> stuck line_space ts -> fails entry ts /\ r_errs (entry ts) = [] /\ no_brace_next ts.
Proof.
  intros W S. apply (stuck_line_space t) in S; [|exact W]. pose proof (ml_first ts S) as X.
  destruct (entry_idle ts W) as [H1 H2].
  - revert X. apply apart. intros c X Y. apply N.eqb_eq in X. subst. discriminate.
  - apply ml_not_begin; [discriminate|exact S].
  - split; [exact H1|]. split; [exact H2|]. destruct X as (c & s & r & -> & X). exists c, s, r. split; [reflexivity|].
    apply N.eqb_eq in X. subst. reflexivity.
Qed.

Lemma brace_dec (ts : toks) : no_brace_next ts \/ ~ no_brace_next ts.
Proof. apply first_dec. Qed.

Lemma entry_closed (ts : toks) : wt ts -> ~ no_brace_next ts -> r_errs (entry ts) = [].
Proof.
  intros W X. apply entry_other; [exact W|]. intros (c & s & r & -> & Y). apply X. exists c, s, r. split; [reflexivity|].
  destruct (c =? 0x7D)%N eqn:Z; [|reflexivity]. apply N.eqb_eq in Z. subst. discriminate.
Qed.

Lemma stuck_entry (ts : toks) e : wt ts -> r_out (entry ts) = Err e -> plain e \/ no_brace_next ts.
Proof.
  intros W O. destruct (brace_dec ts) as [B|B]; [right; exact B|left].
  destruct (needs_entry t nodes ts W) as (e' & O' & P).
  - intros (c & s & r & -> & Y). apply B. exists c, s, r. split; [reflexivity|].
    destruct (c =? 0x7D)%N eqn:Z; [|reflexivity]. apply N.eqb_eq in Z. subst. discriminate.
  - rewrite O in O'. injection O' as <-. exact P.
Qed.

End Children.

(** ** Lists *)

Lemma settle n errs e ef : inside n (lo t e) errs -> good t n errs ef -> l_rem ef <= l_rem e -> inside n (lo t ef) errs.
Proof.
  intros H [P|G] R; [|exact G]. rewrite (lo_plain t _ P). eapply inside_snoc; [exact H|].
  pose proof (lo_at t e). pose proof (pos_mono t _ _ R). lia.
Qed.

Lemma merge_some a (e : located) al c : merge_alts a (Some e) = (al, c) -> exists x, al = Some x /\ l_rem x <= l_rem e.
Proof.
  destruct a as [a|]; cbn.
  - destruct (lmax e a) as [m d] eqn:M. intros [= <- _]. exists m. split; [reflexivity|].
    destruct (lmax_pick _ _ _ _ M) as [[[Q _] K]|[[Q _] K]]; rewrite Q; lia.
  - intros [= <- _]. eauto.
Qed.

Lemma lmax_rem (a b e : located) c : lmax a b = (e, c) -> l_rem e <= l_rem a /\ l_rem e <= l_rem b.
Proof. intros M. destruct (lmax_pick _ _ _ _ M) as [[[Q _] K]|[[Q _] K]]; rewrite Q; lia. Qed.

Lemma lmax_opt_rem (a : located) b e c : lmax_opt a b = (e, c) -> l_rem e <= l_rem a /\ (forall x, b = Some x -> l_rem e <= l_rem x).
Proof.
  destruct b as [b|]; cbn; intros M.
  - apply lmax_rem in M. split; [apply M|]. intros x [= <-]. apply M.
  - injection M as <- _. split; [lia|discriminate].
Qed.

Section List.
Context {A B : Type}.
Variable item : parser A.
Variable d : parser B.
Variable S : toks -> Prop.
Hypothesis LI : okl from item.
Hypothesis NI : neat nowhere item.
Hypothesis SI : sound item.
Hypothesis EI : ended item.
Hypothesis LD : okl from d.
Hypothesis ND : neat S d.
Hypothesis QD : quiet d.
Hypothesis OD : forall ts, exists b rest alt, r_out (d ts) = Ok b rest alt.
Hypothesis HS : forall ts, wt ts -> S ts -> fails item ts /\ r_errs (item ts) = [] /\ no_brace_next ts.
Hypothesis HC : forall ts, wt ts -> ~ no_brace_next ts -> r_errs (item ts) = [].
Hypothesis HE : forall ts e, wt ts -> r_out (item ts) = Err e -> plain e \/ no_brace_next ts.

Lemma or_not_d alt (ts : toks) b rest al : r_out (d ts) = Ok b rest al ->
  exists c, sep_or_not d alt ts = (fst (merge_alts alt al), rest, c).
Proof.
  intros O. unfold sep_or_not. rewrite O, (QD ts). cbn [merge_alts_list]. destruct (merge_alts alt al) as [m c]. eexists. reflexivity.
Qed.

Lemma good_plain n errs (o : option located) : opt plain o -> opt (good t n errs) o.
Proof. destruct o; cbn; [left; assumption|auto]. Qed.

Lemma good_from n errs (ts : toks) (o : option located) : inside n (pos ts) errs -> opt (from (List.length ts)) o -> opt (good t n errs) o.
Proof.
  intros I1 H. destruct o as [l|]; [|exact I]. right. eapply inside_snoc; [exact I1|]. apply lo_from, H.
Qed.

(** What is left when the loop over the items ends at [ts]. *)
Definition left_at (n : nat) (errs : list located) (alt : option located) (ts : toks) (err : option located) : Prop :=
  wt ts /\ match err with
  | None => inside n (pos ts) errs /\ opt plain alt
  | Some e => exists b r3 al errs0, r_out (d ts) = Ok b r3 al /\ wt r3 /\ r_out (item r3) = Err e
      /\ errs = errs0 ++ r_errs (item r3) /\ inside n (pos ts) errs0
      /\ opt (good t n errs) alt /\ (opt plain alt \/ S r3)
  end.

Lemma sep_left n : forall fuel errs outs alt cr (ts : toks), wt ts -> inside n (pos ts) errs -> opt plain alt ->
  forall errs' outs' alt' ts' err cr', sep_loop fuel item d errs outs alt cr ts = (errs', outs', alt', ts', err, cr') ->
  left_at n errs' alt' ts' err.
Proof.
  induction fuel as [|fuel IH]; intros errs outs alt cr ts W I1 P errs' outs' alt' ts' err cr'; cbn [sep_loop].
  - intros [= <- <- <- <- <- <-]. split; [exact W|]. auto.
  - destruct (OD ts) as (b & r3 & al & O). rewrite O. destruct (merge_alts alt al) as [al1 c1] eqn:M1.
    destruct (ok_wt _ _ _ _ _ _ LD W O) as [W3 L3].
    destruct (r_out (item r3)) as [a r4 al4|e] eqn:O3.
    + destruct (merge_alts al1 al4) as [al2 c2] eqn:M2. apply IH; clear IH.
      * eapply ok_wt; [exact LI|exact W3|exact O3].
      * rewrite (QD ts). cbn [app]. eapply inside_app; [|apply (SI _ _ _ _ W3 O3)]. eapply inside_snoc; [exact I1|apply pos_mono, L3].
      * eapply merge_alts_with; [apply plain_respects|exact M2| |].
        -- eapply merge_alts_with; [apply plain_respects|exact M1|exact P|].
           destruct (ND _ _ _ _ W O) as [Q|Q]; [exact Q|]. destruct (HS _ W3 Q) as [[e E] _]. congruence.
        -- destruct (NI _ _ _ _ W3 O3) as [Q|[]]. exact Q.
    + intros [= <- <- <- <- <- <-]. split; [exact W|]. rewrite (QD ts). cbn [app]. exists b, r3, al, errs.
      split; [exact O|]. split; [exact W3|]. split; [exact O3|]. split; [reflexivity|]. split; [exact I1|].
      pose proof (low_alt t _ _ _ _ _ LD W O) as F1.
      destruct (ND _ _ _ _ W O) as [Q|Q].
      * assert (opt plain al1) as Z by (eapply merge_alts_with; [apply plain_respects|exact M1|exact P|exact Q]).
        split; [apply good_plain, Z|left; exact Z].
      * split; [|right; exact Q]. destruct (HS _ W3 Q) as (_ & -> & _). rewrite app_nil_r.
        eapply merge_alts_with; [apply good_respects|exact M1|apply good_plain, P|]. eapply good_from; eassumption.
Qed.

Lemma ends_separated : ends (p_separated item d).
Proof.
  intros ts a rest alt W. unfold p_separated.
  destruct (OD ts) as (b & ts0 & al0 & O0). destruct (or_not_d None ts _ _ _ O0) as [c0 ->]. cbn [merge_alts fst].
  destruct (ok_wt _ _ _ _ _ _ LD W O0) as [W0 L0]. pose proof (low_alt t _ _ _ _ _ LD W O0) as F0.
  pose proof (ok_pos t _ _ _ _ _ LD W O0) as P0.
  destruct (r_out (item ts0)) as [x r1 al1|e] eqn:O1.
  - destruct (merge_alts al0 al1) as [al2 c2] eqn:M1.
    destruct (ok_wt _ _ _ _ _ _ LI W0 O1) as [W1 L1].
    destruct (sep_loop (Datatypes.S (List.length ts)) item d (r_errs (item ts0)) [x] al2 (c0 ++ r_crash (item ts0) ++ c2) r1)
      as [[[[[errs outs] al3] ts2] err] c3] eqn:SL.
    apply (sep_left (pos ts)) in SL; [|exact W1| |].
    2:{ eapply inside_mono; [apply (SI _ _ _ _ W0 O1)|exact P0|lia]. }
    2:{ eapply merge_alts_with; [apply plain_respects|exact M1| |].
        - destruct (ND _ _ _ _ W O0) as [Q|Q]; [exact Q|]. destruct (HS _ W0 Q) as [[e E] _]. congruence.
        - destruct (NI _ _ _ _ W0 O1) as [Q|[]]. exact Q. }
    destruct SL as [W2 SL].
    destruct (OD ts2) as (b2 & r3 & al4 & O3). destruct (or_not_d al3 ts2 _ _ _ O3) as [c4 ->].
    destruct (ok_wt _ _ _ _ _ _ LD W2 O3) as [W3 L3]. pose proof (low_alt t _ _ _ _ _ LD W2 O3) as F3.
    pose proof (ok_pos t _ _ _ _ _ LD W2 O3) as P3.
    destruct (merge_alts al3 al4) as [al5 c5] eqn:M2. cbn [fst].
    destruct (merge_alts al5 err) as [al6 c6] eqn:M3. cbn [r_out r_errs]. intros [= <- <- <-].
    destruct err as [e|].
    + destruct SL as (b3 & r3' & al' & errs0 & O3' & _ & E3 & -> & I0 & G3 & N3). rewrite O3 in O3'. injection O3' as <- <- <-.
      assert (inside (pos ts) (pos r3) errs0) as I3 by (eapply inside_snoc; [exact I0|exact P3]).
      assert (inside (pos ts) (lo t e) (errs0 ++ r_errs (item r3))) as IE.
      { eapply inside_app; [exact I3|]. exact (EI _ _ W3 E3). }
      assert (opt (good t (pos ts) (errs0 ++ r_errs (item r3))) al4) as G4.
      { destruct (ND _ _ _ _ W2 O3) as [Q|Q]; [apply good_plain, Q|]. destruct (HS _ W3 Q) as (_ & -> & _). rewrite app_nil_r.
        eapply good_from; [exact I0|exact F3]. }
      assert (opt (good t (pos ts) (errs0 ++ r_errs (item r3))) al6) as G6.
      { eapply merge_alts_with; [apply good_respects|exact M3| |right; exact IE].
        eapply merge_alts_with; [apply good_respects|exact M2|exact G3|exact G4]. }
      split; [|split].
      * destruct (brace_dec r3) as [B3|B3]; [right; exact B3|left].
        eapply merge_alts_with; [apply plain_respects|exact M3| |].
        -- eapply merge_alts_with; [apply plain_respects|exact M2| |].
           ++ destruct N3 as [Q|Q]; [exact Q|]. elim B3. apply (HS _ W3 Q).
           ++ destruct (ND _ _ _ _ W2 O3) as [Q|Q]; [exact Q|]. elim B3. apply (HS _ W3 Q).
        -- cbn. destruct (HE _ _ W3 E3) as [Q|Q]; [exact Q|contradiction].
      * intros B3. rewrite (HC _ W3 B3), app_nil_r. exact I3.
      * intros e3 ef c PE RE M. destruct (merge_some _ _ _ _ M3) as (x6 & -> & R6).
        destruct (lmax_opt_rem _ _ _ _ M) as [Ra Rb]. specialize (Rb x6 eq_refl).
        apply (settle _ _ e); [exact IE| |lia].
        eapply lmax_opt_with; [apply good_respects|exact M|left; exact PE|exact G6].
    + destruct SL as [I2 P2].
      assert (al6 = al5) as -> by (destruct al5; cbn in M3; injection M3 as <- _; reflexivity).
      assert (inside (pos ts) (pos r3) errs) as I3 by (eapply inside_snoc; [exact I2|exact P3]).
      assert (opt (good t (pos ts) errs) al5) as G5.
      { eapply merge_alts_with; [apply good_respects|exact M2|apply good_plain, P2|]. eapply good_from; [exact I2|exact F3]. }
      split; [|split; [intros _; exact I3|]].
      * destruct (ND _ _ _ _ W2 O3) as [Q|Q].
        -- left. eapply merge_alts_with; [apply plain_respects|exact M2|exact P2|exact Q].
        -- right. apply (HS _ W3 Q).
      * intros e3 ef c PE RE M. destruct (lmax_opt_rem _ _ _ _ M) as [Ra _].
        apply (settle _ _ e3); [|eapply lmax_opt_with; [apply good_respects|exact M|left; exact PE|exact G5]|exact Ra].
        rewrite (lo_plain t _ PE), RE. exact I3.
  - destruct (merge_alts al0 (Some e)) as [al1 c1] eqn:M1. cbn [r_out r_errs]. intros [= <- <- <-].
    assert (inside (pos ts) (lo t e) (r_errs (item ts0))) as IE.
    { eapply inside_mono; [exact (EI _ _ W0 O1)|exact P0|lia]. }
    assert (opt (good t (pos ts) (r_errs (item ts0))) al1) as G1.
    { eapply merge_alts_with; [apply good_respects|exact M1| |right; exact IE].
      destruct (ND _ _ _ _ W O0) as [Q|Q]; [apply good_plain, Q|]. destruct (HS _ W0 Q) as (_ & -> & _).
      apply (good_from _ _ ts); [cbn; lia|exact F0]. }
    split; [|split].
    + destruct (brace_dec ts0) as [B3|B3]; [right; exact B3|left].
      eapply merge_alts_with; [apply plain_respects|exact M1| |].
      * destruct (ND _ _ _ _ W O0) as [Q|Q]; [exact Q|]. elim B3. apply (HS _ W0 Q).
      * cbn. destruct (HE _ _ W0 O1) as [Q|Q]; [exact Q|contradiction].
    + intros B3. rewrite (HC _ W0 B3). exact P0.
    + intros e3 ef c PE RE M. destruct (merge_some _ _ _ _ M1) as (x6 & -> & R6).
      destruct (lmax_opt_rem _ _ _ _ M) as [Ra Rb]. specialize (Rb x6 eq_refl).
      apply (settle _ _ e); [exact IE| |lia].
      eapply lmax_opt_with; [apply good_respects|exact M|left; exact PE|exact G1].
Qed.

End List.

Lemma ends_map {A B} (f : A -> B) p : ends p -> ends (p_map f p).
Proof. intros S ts b rest alt W O. apply map_rest in O. destruct O as (a & O & _). exact (S ts a rest alt W O). Qed.

Lemma ends_nodes n : ends (nodes_rec n).
Proof.
  induction n as [|n IH]; cbn [nodes_rec].
  - intros ts a rest alt W O. discriminate.
  - pose proof (low_nodes t n) as LN. pose proof (low_braced t n LN) as LB.
    apply ends_map. fold (dashed_node t (nodes_rec n)). apply (ends_separated _ _ (stuck line_space)).
    + apply low_entry; assumption.
    + apply neat_entry; [exact LN|exact LB|apply neat_nodes, IH].
    + apply sound_entry; assumption.
    + apply ended_entry; assumption.
    + apply l_repeated; [apply from_place|apply low_line_space].
    + apply neat_lines.
    + apply quiet_repeated, quiet_line_space.
    + apply repeated_ok.
    + intros ts W S. apply entry_ml; assumption.
    + intros ts W H. apply entry_closed; assumption.
    + intros ts e W O. eapply stuck_entry; eassumption.
Qed.

(** ** Documents *)

Lemma inside_order n m errs : inside n m errs -> Forall (fun e => n <= starts (l_err e)) errs /\ Forall (fun e => stops (l_err e) <= m) errs
  /\ Forall (fun e => starts (l_err e) < m) errs /\ in_order (map l_err errs).
Proof.
  revert n. induction errs as [|e errs IH]; intros n H; cbn [inside map] in H |- *.
  - repeat split; constructor.
  - destruct H as (a & b & X & A1 & B1 & H). destruct (IH _ H) as (H1 & H2 & H3 & H4). apply inside_le in H as H5.
    assert (starts (l_err e) = a) as E1 by (unfold starts; rewrite X; reflexivity).
    assert (stops (l_err e) = b) as E2 by (unfold stops; rewrite X; reflexivity).
    split; [|split; [|split]]; constructor; try lia; try assumption.
    + eapply Forall_impl; [|exact H1]. intros e' Z. cbn in Z. lia.
    + rewrite Forall_map. eapply Forall_impl; [|exact H1]. intros e' Z. cbn in Z. unfold precedes. lia.
Qed.

Lemma order_snoc es e : in_order es -> Forall (fun e' => precedes e' e) es -> in_order (es ++ [e]).
Proof.
  unfold in_order. induction 1 as [|x l H1 H2 IH]; intros F; cbn; [constructor; constructor|].
  inversion F; subst. constructor; [apply Forall_app; split; [assumption|constructor; [assumption|constructor]]|]. apply IH. assumption.
Qed.

Lemma separated_ok {A B} (p : parser A) (d : parser B) (ts : toks) : exists a rest alt, r_out (p_separated p d ts) = Ok a rest alt.
Proof.
  unfold p_separated. destruct (sep_or_not d None ts) as [[x1 x2] x3]. destruct (r_out (p x2)) as [a r al|e].
  - destruct (merge_alts x1 al) as [y1 y2]. destruct (sep_loop _ _ _ _ _ _ _ _) as [[[[[z1 z2] z3] z4] z5] z6].
    destruct (sep_or_not d z3 z4) as [[u1 u2] u3]. destruct (merge_alts u1 z5) as [v1 v2]. cbn [r_out]. eauto.
  - destruct (merge_alts x1 (Some e)) as [v1 v2]. cbn [r_out]. eauto.
Qed.

Definition listed (n : nat) (errs : list (perror span)) : Prop := exists es, (exists m, inside n m es /\ m <= pos_rem 0)
  /\ (errs = map l_err es \/ exists e, errs = map l_err es ++ [l_err e] /\ inside n (lo t e) es).

Lemma run_listed {A} (p : parser A) (ts : toks) errs : wt ts -> okl from p -> ends p ->
  (forall ts, exists a rest alt, r_out (p ts) = Ok a rest alt) ->
  run (p_then_ignore p p_end) ts = Rejected errs -> listed (pos ts) errs.
Proof.
  intros W LN EN OK. unfold run. cbv zeta. destruct (r_crash (p_then_ignore p p_end ts)); [|discriminate].
  destruct (OK ts) as (a & r1 & al1 & O1). destruct (EN _ _ _ _ W O1) as (_ & I1 & I2).
  destruct (ok_wt _ _ _ _ _ _ LN W O1) as [W1 _].
  rewrite (then_ignore_errs _ _ _ _ _ _ O1), (quiet_end r1), app_nil_r.
  destruct r1 as [|[c s] r1].
  - assert (exists alt, r_out (p_then_ignore p p_end ts) = Ok a [] alt) as [alt O].
    { unfold p_then_ignore, p_map, p_then, p_bind. rewrite O1. cbn [p_end r_out].
      destruct (merge_alts al1 None) as [m cr]. cbn [r_out fst]. eauto. }
    rewrite O. destruct (r_errs (p ts)) as [|x es] eqn:X; [discriminate|]. intros [= <-]. exists (x :: es).
    split; [|left; reflexivity]. exists (pos []). split; [|reflexivity]. apply I1. intros (c & s & r & Z & _). discriminate.
  - assert (exists e3, r_out (p_end ((c, s) :: r1)) = Err e3 /\ plain e3 /\ l_rem e3 = Datatypes.S (List.length r1)) as (e3 & E3 & P3 & R3).
    { eexists. split; [reflexivity|]. split; [apply plain_unexpected, W1|reflexivity]. }
    destruct (lmax_opt e3 al1) as [ef cc] eqn:M. pose proof (I2 e3 ef cc P3 R3 M) as J.
    assert (r_out (p_then_ignore p p_end ts) = Err ef) as O.
    { unfold p_then_ignore. apply map_err_out. rewrite (then_fail _ _ _ _ _ _ _ O1 E3), M. reflexivity. }
    rewrite O. intros [= <-]. exists (r_errs (p ts)). split; [eexists; split; [exact J|]|].
    { pose proof (lo_at t ef). pose proof (pos_mono t 0 (l_rem ef) (Nat.le_0_l _)). lia. }
    right. exists ef.
    split; [rewrite map_app; reflexivity|exact J].
Qed.

Lemma document_listed (ts : toks) errs : wt ts -> run document_ ts = Rejected errs -> listed (pos ts) errs.
Proof.
  intros W H. unfold document_ in H. revert H. apply run_listed; [exact W| | |].
  - intros ts'. apply low_nodes.
  - intros ts'. apply ends_nodes.
  - intros ts'. unfold nodes. cbn [nodes_rec]. unfold nodes_body.
    match goal with |- context [p_map ?f (p_separated ?i ?d)] => destruct (separated_ok i d ts') as (a & r & al & O); exists (f a), r, al end.
    exact (map_ok _ _ _ _ _ _ O).
Qed.

Lemma listed_order n errs : listed n errs -> in_order errs.
Proof.
  intros (es & (m & I0 & M) & [->|(e & -> & I1)]); [eapply inside_order; exact I0|].
  destruct (inside_order _ _ _ I1) as (_ & H2 & H3 & H4). apply order_snoc; [exact H4|].
  apply Forall_map, Forall_forall. intros x X. rewrite Forall_forall in H2, H3. specialize (H2 x X). specialize (H3 x X).
  cbn in H2, H3. unfold precedes, lo in *. lia.
Qed.

Lemma inside_pointed n m errs : inside n m errs -> Forall pointed (map l_err errs).
Proof.
  revert n. induction errs as [|e errs IH]; intros n H; cbn [inside map] in H |- *; [constructor|].
  destruct H as (a & b & X & _ & L & H). constructor; [exists a, b; auto|]. eapply IH, H.
Qed.

Lemma listed_pointed n errs : listed n errs -> forall es e, errs = es ++ [e] -> Forall pointed es.
Proof.
  intros (es & (m & I0 & M) & H) es' e' X. apply inside_pointed in I0. destruct H as [->|(e & -> & _)].
  - rewrite X in I0. apply Forall_app in I0. apply I0.
  - apply app_inj_tail in X. destruct X as [<- _]. exact I0.
Qed.

Lemma inside_count n m errs : inside n m errs -> n + List.length errs <= m.
Proof.
  revert n. induction errs as [|e errs IH]; intros n H; cbn [inside List.length] in H |- *; [lia|].
  destruct H as (a & b & _ & A1 & L & H). apply IH in H. lia.
Qed.

Lemma listed_count n errs : listed n errs -> List.length errs <= S (byte_len t).
Proof.
  intros (es & (m & I0 & M) & H). apply inside_count in I0. rewrite pos_end in M.
  destruct H as [->|(e & -> & _)]; rewrite ?app_length, map_length; cbn; lia.
Qed.

End OrderList.
