(** Nodes and documents: see EarlyGrammar.v. *)

From Coq Require Import NArith ZArith PeanoNat List Bool String Lia ZifyBool.
From Verif Require Import Chars Ast Errors Chumsky Spans Grammar Safe GrammarSafe Near GrammarNear Kdl KdlChars KdlText
  Good EarlySpec EarlyCalc EarlyGrammar EarlyItems EarlyItem2.
Import ListNotations.
Local Open Scope list_scope.

Local Existing Instance unit_env.
Local Opaque literal_ value_ type_name_value string_ number keyword bare_ident ident type_name prop_or_arg node_space
  node_terminator line_space.

Lemma eats_fwd {A} (p : parser A) : fwd p -> eats 0 p.
Proof. intros F ts a rest alt O. apply (fwd_ok _ _ _ _ _ F), suffix_len in O. lia. Qed.

Lemma D_slashdash : D slashdash.
Proof. unfold slashdash. ds. Qed.
#[export] Hint Resolve D_slashdash : early.

Lemma D_node_items : D node_items.
Proof.
  unfold node_items. apply D_repeated.
  - apply D_ignore_then; ds.
  - apply (eats_ignore_then 1 0).
    + apply eats_repeat; auto with safe.
    + apply eats_fwd, D_prop_or_arg.
Qed.
#[export] Hint Resolve D_node_items : early.

Lemma D_opt_children nodes : D nodes -> D (opt_children nodes).
Proof. intros N. unfold opt_children, braced_nodes. ds. Qed.

Lemma D_node nodes : D nodes -> D (node_ nodes).
Proof.
  intros N. unfold node_. apply D_map, D_then_ignore; [|ds]. apply D_then; [|apply D_opt_children, N]. ds.
Qed.

Lemma eats_node nodes : D nodes -> eats 1 (node_ nodes).
Proof.
  intros N. unfold node_. apply eats_map. apply (eats_then_ignore 1 0).
  - apply (eats_then 1 0); [|apply eats_fwd, D_opt_children, N].
    apply (eats_then 1 0); [|apply eats_fwd, D_node_items].
    apply (eats_then 0 1); [apply eats_fwd; apply D_or_not; ds|]. apply eats_spanned, eats_ident.
  - apply eats_fwd. apply D_then; ds.
Qed.

Lemma D_body nodes : D nodes -> D (nodes_body nodes).
Proof.
  intros N. unfold nodes_body. apply D_map.
  assert (D (p_then slashdash (p_spanned (node_ nodes)))) as I by (apply D_then; [ds|apply D_spanned, D_node, N]).
  assert (eats 1 (p_then slashdash (p_spanned (node_ nodes)))) as J.
  { apply (eats_then 0 1); [apply eats_fwd; apply D_slashdash|apply eats_spanned, eats_node, N]. }
  assert (D (p_repeated line_space)) as K by ds.
  split; [apply fwd_separated|apply det_separated]; assumption.
Qed.

Lemma D_rec n : D (nodes_rec n).
Proof.
  induction n as [|n IH]; [|apply (D_body _ IH)]. split.
  - intros ts. cbn [nodes_rec r_out]. destruct ts as [|[c s] ts]; cbn; lia.
  - intros m q q' _ _. exact I.
Qed.

(** ** The fuel of the recursion does not matter *)

Definition ext {A} (n : nat) (p p' : parser A) : Prop := forall ts, len ts < n -> p ts = p' ts.

Lemma ext_map {A B} n (f : A -> B) p p' : ext n p p' -> ext n (p_map f p) (p_map f p').
Proof. intros H ts L. unfold p_map. rewrite (H ts L). reflexivity. Qed.

Lemma ext_map_with_span {A B} n (f : A -> unit -> B) p p' : ext n p p' -> ext n (p_map_with_span f p) (p_map_with_span f p').
Proof. intros H ts L. unfold p_map_with_span. rewrite (H ts L). reflexivity. Qed.

Lemma ext_map_err_with_span {A} n f (p p' : parser A) : ext n p p' -> ext n (p_map_err_with_span f p) (p_map_err_with_span f p').
Proof. intros H ts L. unfold p_map_err_with_span. rewrite (H ts L). reflexivity. Qed.

Lemma ext_or_not {A} n (p p' : parser A) : ext n p p' -> ext n (p_or_not p) (p_or_not p').
Proof. intros H ts L. unfold p_or_not. rewrite (H ts L). reflexivity. Qed.

Lemma ext_then_r {A B} n k (p : parser A) (q q' : parser B) : eats k p -> ext (n - k) q q' -> ext n (p_then p q) (p_then p q').
Proof.
  intros Ep H ts L. unfold p_then, p_bind. destruct (r_out (p ts)) as [a r alt|e] eqn:O; [|reflexivity].
  apply Ep in O. rewrite (H r) by lia. reflexivity.
Qed.

Lemma ext_then_l {A B} n (p p' : parser A) (q : parser B) : ext n p p' -> ext n (p_then p q) (p_then p' q).
Proof. intros H ts L. unfold p_then, p_bind. rewrite (H ts L). reflexivity. Qed.

Lemma ext_sep_loop {A B} n (i i' : parser A) (d : parser B) : fwd i -> fwd d -> ext n i i' ->
  forall fuel errs outs alt cr ts, len ts < n -> sep_loop fuel i d errs outs alt cr ts = sep_loop fuel i' d errs outs alt cr ts.
Proof.
  intros Fi Fd H. induction fuel as [|fuel IH]; intros errs outs alt cr ts L; cbn [sep_loop]; [reflexivity|].
  destruct (r_out (d ts)) as [b r al|e] eqn:O; [|reflexivity]. destruct (merge_alts alt al).
  apply (fwd_ok _ _ _ _ _ Fd), suffix_len in O. rewrite <- (H r) by lia.
  destruct (r_out (i r)) as [a r2 al2|e] eqn:O2; [|reflexivity]. destruct (merge_alts o al2).
  apply (fwd_ok _ _ _ _ _ Fi), suffix_len in O2. apply IH. lia.
Qed.

Lemma ext_separated {A B} n (i i' : parser A) (d : parser B) : fwd i -> D d -> ext n i i' ->
  ext n (p_separated i d) (p_separated i' d).
Proof.
  intros Fi Fd H ts L. unfold p_separated. destruct (sep_or_not d None ts) as [[alt0 ts0] c0] eqn:S0.
  apply (sep_or_not_fwd d Fd), suffix_len in S0. rewrite <- (H ts0) by lia.
  destruct (r_out (i ts0)) as [a r al|e] eqn:O; [|reflexivity]. destruct (merge_alts alt0 al).
  apply (fwd_ok _ _ _ _ _ Fi), suffix_len in O.
  rewrite (ext_sep_loop n i i' d Fi (proj1 Fd) H) by lia. reflexivity.
Qed.

Lemma ext_body n nodes nodes' : D nodes -> ext (n - 1) nodes nodes' -> ext n (nodes_body nodes) (nodes_body nodes').
Proof.
  intros N H. unfold nodes_body. apply ext_map, ext_separated; [apply D_then; [ds|apply D_spanned, D_node, N]|ds|].
  apply (ext_then_r n 0); [apply eats_fwd, D_slashdash|]. rewrite Nat.sub_0_r.
  apply ext_map_with_span, ext_map, ext_map, ext_then_l. apply (ext_then_r n 0).
  { apply eats_fwd. apply D_then; ds. }
  rewrite Nat.sub_0_r. apply ext_or_not, (ext_then_r n 0).
  { apply eats_fwd. apply D_ignore_then; ds. }
  rewrite Nat.sub_0_r. apply ext_map_with_span. unfold braced_nodes. apply ext_map, (ext_then_r n 1); [apply eats_just|].
  apply ext_map_err_with_span, ext_map, ext_then_l, H.
Qed.

Lemma ext_rec : forall n f f', n <= f -> n <= f' -> ext n (nodes_rec f) (nodes_rec f').
Proof.
  induction n as [|n IH]; intros f f' F F'; [intros ts L; lia|].
  destruct f as [|f], f' as [|f']; [lia|lia|lia|]. cbn [nodes_rec]. apply ext_body; [apply D_rec|].
  cbn [Nat.sub]. rewrite Nat.sub_0_r. apply IH; lia.
Qed.

Lemma nodes_fuel f (ts : toks) : len ts < f -> nodes ts = nodes_rec f ts.
Proof. intros L. unfold nodes. apply (ext_rec (S (len ts))); lia. Qed.

Lemma D_nodes : D nodes.
Proof.
  split.
  - intros ts. exact (proj1 (D_rec (S (len ts))) ts).
  - intros m q q' T L. assert (len (m ++ q) < S (len (m ++ q) + len (m ++ q'))) as L1 by lia.
    assert (len (m ++ q') < S (len (m ++ q) + len (m ++ q'))) as L2 by lia.
    rewrite (nodes_fuel _ _ L1) in *. rewrite (nodes_fuel _ _ L2). exact (proj2 (D_rec _) m q q' T L).
Qed.

Lemma D_document : D document_.
Proof. unfold document_. apply D_then_ignore; [apply D_nodes|ds]. Qed.

(** A text that is rejected where another goes on to be accepted. *)
Lemma document_early m q q' e d alt : tidy (chars (m ++ q)) -> r_out (document_ (m ++ q)) = Err e ->
  r_out (document_ (m ++ q')) = Ok d [] alt -> l_rem e <= len q.
Proof.
  intros T H K. destruct (le_lt_dec (l_rem e) (len q)) as [L|L]; [exact L|exfalso].
  assert (X := proj2 D_document m q q' T). rewrite H, K in X. exact (X L).
Qed.
