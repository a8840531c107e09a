(** Where the errors of nodes and documents lie. *)

From Coq Require Import NArith PeanoNat List Bool String Lia.
From Verif Require Import Chars Ast Errors Chumsky Spans Grammar Safe GrammarSafe Kdl KdlChars Good GrammarNear
  LexLit LexIdent LexSpace SpanProps ErrSpec TokenSet ErrAt ErrGrammar LaxSpec LaxCalc LaxGrammar LaxLit LaxIdent.
Import ListNotations.
Local Open Scope list_scope.

Lemma list_nil N : lax_list N [].
Proof. apply (Cat _ _ [] []); constructor. Qed.

Lemma list_node N a b : lax_list N a -> cat (opt lax_slashdash) (lax_node N) b -> lax_list N (a ++ b).
Proof.
  intros [x y X Y] [u v U W]. rewrite <- app_assoc. constructor; [exact X|]. apply star_snoc; [exact Y|].
  constructor; [exact U|]. rewrite <- (app_nil_r v). constructor; [exact W|constructor].
Qed.

Lemma nodes_space N y : star (cat (opt lax_slashdash) (cat (lax_node N) (star lax_lspace))) y -> y <> [] ->
  forall b, star lax_lspace b -> star (cat (opt lax_slashdash) (cat (lax_node N) (star lax_lspace))) (y ++ b).
Proof.
  induction 1 as [|u v U W IH]; intros Ne b B; [congruence|]. rewrite <- app_assoc.
  destruct v as [|c v].
  - cbn [app]. rewrite <- (app_nil_r (u ++ b)). constructor; [|constructor].
    destruct U as [s n S [x z X Z]]. rewrite <- !app_assoc. constructor; [exact S|]. constructor; [exact X|].
    apply star_app; assumption.
  - constructor; [exact U|]. apply IH; [discriminate|exact B].
Qed.

Lemma list_space N a b : lax_list N a -> star lax_lspace b -> lax_list N (a ++ b).
Proof.
  intros [x y X Y] B. rewrite <- app_assoc. destruct y as [|c y].
  - rewrite <- (app_nil_r ([] ++ b)), app_assoc. constructor; [apply star_app; assumption|constructor].
  - constructor; [exact X|]. apply nodes_space; [exact Y|discriminate|exact B].
Qed.

Section LaxNode.
Variable t : text.
Variable V : text -> Prop.

#[local] Hint Extern 0 (env span) => exact (ErrAt.E t) : typeclass_instances.

Notation okv := (okv t V).
Notation at_ := (at_ t V).
Notation gl := (gl t V).
Notation room := (room V).

Lemma okv_prop_or_arg : okv (cat (opt lax_slashdash) lax_item) prop_or_arg.
Proof.
  unfold prop_or_arg. apply okv_or.
  - apply okv_map. eapply okv_weaken; [|apply okv_ignore_then; [apply okv_ignore_then; [apply (okv_begin t V 0x2D%N)|apply okv_nspaces]|apply okv_inner]].
    intros s [a b A B]. constructor; [apply Opt_some, A|exact B].
  - eapply okv_weaken; [|apply okv_inner]. intros s H. apply (Cat _ _ [] s); [constructor|exact H].
Qed.

Lemma okv_items : okv lax_items node_items.
Proof. unfold node_items. apply okv_repeat, okv_ignore_then; [apply okv_nspaces1|apply okv_prop_or_arg]. Qed.

Lemma okv_braced N (nodes : parser span (list (snode span))) : okv N nodes -> okv (lax_braces N) (braced_nodes nodes).
Proof.
  intros P. unfold braced_nodes, p_ignore_then. apply okv_map.
  assert (okv (cat N (word [0x7D%N])) (p_then_ignore nodes (p_just 0x7D%N))) as P'.
  { apply okv_then_ignore; [exact P|apply okv_just]. }
  assert (inhabited (lax_braces N)) as I.
  { destruct P as [[s S] _]. exists ([0x7B%N] ++ s ++ [0x7D%N]). constructor; [reflexivity|]. constructor; [exact S|reflexivity]. }
  split; [exact I|]. intros pre q T R.
  assert (V pre) as V0 by (eapply room_here; [exact I|exact R]).
  eapply at_weaken; [|apply (at_bind t V (fun m _ (_ : char) => m = [0x7B%N]) (fun m1 _ m2 q' _ => K (lax_braces N) (m1 ++ m2) q'));
    [exact T| |]].
  - intros m q' a _ (m1 & m2 & -> & _ & H). exact H.
  - eapply at_weaken; [|apply at_just; [exact T|exact V0|]].
    + intros m q' a _ [-> _]. reflexivity.
    + intros _ Nq. apply R; [|destruct q as [|c q]; [congruence|]; exact (near_instead [] c q _)].
      apply (pfx_cat_l (word [0x7B%N])); [exact (proj1 P')|]. apply pfx_self. reflexivity.
  - intros m q' c X T' ->. apply at_map_err_with_span.
    + intros e e' O G M. unfold braces_err in M.
      destruct (is_eoi_error (l_err e)) eqn:Z; [|injection M as <-; destruct e; exact G].
      eapply unclosed_at; [exact T'|exact T|exact V0| |exact G|exact Z|exact M].
      pose proof (before_at t pre (str "{") q' (l_rem e) T') as [_ Y]. cbn [str byte_len] in Y.
      refine (eq_trans (f_equal sp_start Y) _). reflexivity.
    + eapply okv_step with (La := word [0x7B%N]); [exact P'| |exact T'|apply K_full; reflexivity|rewrite <- X; exact R].
      intros a b. apply Cat.
Qed.

Lemma okv_children N (nodes : parser span (list (snode span))) : okv N nodes -> okv (opt (lax_children N)) (opt_children nodes).
Proof.
  intros P. unfold opt_children. apply okv_or_not.
  eapply okv_weaken; [|apply okv_then; [apply okv_ignore_then; [apply okv_nspaces|apply okv_slashdash]|apply okv_spanned, okv_braced, P]].
  intros s [a b [a1 a2 A1 A2] B]. rewrite <- app_assoc. constructor; [exact A1|]. constructor; assumption.
Qed.

Lemma okv_node N (nodes : parser span (list (snode span))) : okv N nodes -> okv (lax_node N) (node_ nodes).
Proof.
  intros P. unfold node_. apply okv_map.
  eapply okv_weaken; [|apply okv_then_ignore; [apply okv_then; [apply okv_then; [apply okv_then;
    [apply okv_or_not, okv_spanned, okv_type|apply okv_spanned, okv_ident]|apply okv_items]|apply okv_children, P]
    |apply okv_then; [apply okv_nspaces|apply okv_terminator]]].
  intros s [a b [c d [e f [g h G H] F] D] B]. rewrite <- !app_assoc.
  constructor; [exact G|]. constructor; [exact H|]. constructor; [exact F|]. constructor; [exact D|exact B].
Qed.

Lemma okv_list N (nodes : parser span (list (snode span))) : okv N nodes -> okv (lax_list N) (nodes_body nodes).
Proof.
  intros P. unfold nodes_body. apply okv_map.
  apply (okv_separated t V (cat (opt lax_slashdash) (lax_node N)) (star lax_lspace)).
  - apply okv_then; [apply okv_slashdash|apply okv_spanned, okv_node, P].
  - apply okv_lspaces.
  - apply list_nil.
  - apply list_node.
  - apply list_space.
Qed.

Lemma document_nil : lax_document [].
Proof. constructor. apply list_nil. Qed.

Lemma okv_rec n : okv lax_document (nodes_rec n).
Proof.
  induction n as [|n IH]; cbn [nodes_rec].
  - split; [exists []; apply document_nil|]. intros pre q T R. split; [constructor|].
    apply unexpected_ok; [exact T|eapply room_here; [|exact R]; exists []; apply document_nil|intros ? []].
  - eapply okv_weaken; [|apply okv_list, IH]. apply Lax.
Qed.

End LaxNode.

Section Whole.
Variable t : text.

#[local] Hint Extern 0 (env span) => exact (ErrAt.E t) : typeclass_instances.

Lemma at_eq {A} V (Q : text -> text -> A -> Prop) (p p' : parser span A) pre q :
  p (toks_at pre q) = p' (toks_at pre q) -> at_ t V p' pre q Q -> at_ t V p pre q Q.
Proof. unfold LaxCalc.at_. intros ->. auto. Qed.

Lemma nodes_eq ts : @nodes span (ErrAt.E t) ts = nodes_rec (S (List.length ts)) ts.
Proof. reflexivity. Qed.

Lemma at_then_ignore {A} V (Q : text -> text -> A -> Prop) (p : parser span A) q :
  t = q -> at_ t V p [] q Q -> (forall m q' a, q = m ++ q' -> Q m q' a -> V m) ->
  at_ t V (p_then_ignore p p_end) [] q (fun m q' a => q' = [] /\ Q m [] a).
Proof.
  intros T P H. unfold p_then_ignore. apply at_map with (Q := fun m q' ab => q' = [] /\ Q m [] (fst ab)); [auto|].
  eapply at_weaken; [|apply (at_bind t V Q (fun _ _ m2 q2 _ => m2 = [] /\ q2 = [])); [exact T|exact P|]].
  - intros m q' a X (m1 & m2 & -> & H1 & -> & ->). rewrite !app_nil_r in *. auto.
  - intros m q' a X T' H1. apply at_end; [exact T'|]. eapply H; eassumption.
Qed.

Lemma at_document : at_ t beginning document_ [] t (fun m q' _ => m = t /\ beginning t).
Proof.
  eapply at_weaken; [|apply (at_then_ignore beginning (fun m _ _ => pfx lax_document m)); [reflexivity| |]].
  - intros m q' a X [-> H]. rewrite app_nil_r in X. subst m. split; [reflexivity|exact H].
  - eapply at_eq; [apply nodes_eq|].
    eapply at_weaken; [|apply (proj2 (okv_rec t beginning _)); [reflexivity|]].
    + intros m q' a _ [H _]. exact H.
    + intros m H _. exact H.
  - intros m q' a X H. exact H.
Qed.

End Whole.
