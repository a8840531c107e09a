(** [Box], [Arc] and [Rc] change nothing. *)

From Coq Require Import NArith List.
From Verif Require Import Chars Ast Errors Chumsky Decode DecodeSpec Containers PointerSpec.
Import ListNotations.

Section Pointers.
Context {Sp A : Type}.
Implicit Type i : partial_impl Sp A.

Lemma parse_wrapped {B} (wrap : A -> B) ast set_ctx (d : children_impl Sp A) :
  parse_with_context ast set_ctx (wrapped_children wrap d)
  = outcome_map wrap (parse_with_context ast set_ctx d).
Proof.
  destruct ast as [doc| |]; try reflexivity. unfold parse_with_context, wrapped_children, d_map, d_bind.
  destruct (d doc (set_ctx context_new)) as [c [a|e|]]; try reflexivity.
  unfold d_ok. now destruct (has_errors c).
Qed.

Lemma node_wrapped {B} (wrap : A -> B) (d : node_impl Sp A) n :
  node_decode (wrapped_node wrap d) n = decoded_map wrap (node_decode d n).
Proof.
  unfold node_decode, wrapped_node, d_map, d_bind.
  destruct (d n context_new) as [c [a|e|]]; try reflexivity.
  unfold d_ok. now destruct (has_errors c).
Qed.

Lemma node_wrapped_same {B} (wrap : A -> B) (d : node_impl Sp A) n c :
  same_but wrap (d n c) (wrapped_node wrap d n c).
Proof.
  unfold wrapped_node, d_map, d_bind. destruct (d n c) as [c' [a|e|]]; now split.
Qed.

Lemma boxed_same i ops : forall x c,
  same_but (fun r => (fst r, Boxed (snd r))) (insert_all i ops x c)
    (insert_all (boxed_partial i) ops (Boxed x) c).
Proof.
  induction ops as [|op ops IH]; intros x c; cbn [insert_all]; [now split|].
  assert (K : forall m : context Sp -> context Sp * dout Sp (bool * A),
    same_but (fun r => (fst r, Boxed (snd r)))
      (match m c with
       | (c', DOk (t, x')) =>
           match insert_all i ops x' c' with
           | (c'', DOk (ts, x'')) => (c'', DOk (t :: ts, x''))
           | (c'', DErr e) => (c'', DErr e)
           | (c'', DPanic) => (c'', DPanic)
           end
       | (c', DErr e) => (c', DErr e)
       | (c', DPanic) => (c', DPanic)
       end)
      (match d_map (fun '(t, x) => (t, Boxed x)) m c with
       | (c', DOk (t, x')) =>
           match insert_all (boxed_partial i) ops x' c' with
           | (c'', DOk (ts, x'')) => (c'', DOk (t :: ts, x''))
           | (c'', DErr e) => (c'', DErr e)
           | (c'', DPanic) => (c'', DPanic)
           end
       | (c', DErr e) => (c', DErr e)
       | (c', DPanic) => (c', DPanic)
       end)).
  2: { destruct op as [n|k v]; [apply (K (pi_insert_child i x n))|apply (K (pi_insert_property i x k v))]. }
  intros m. unfold d_map, d_bind. destruct (m c) as [c' [[t x']|e|]]; try now split.
  unfold d_ok. specialize (IH x' c'). destruct (insert_all i ops x' c') as [c2 [[ts y]|e|]],
    (insert_all (boxed_partial i) ops (Boxed x') c') as [c3 [[ts' y']|e'|]]; destruct IH as [E1 E2];
    cbn in *; try contradiction; subst; try now split.
  injection E2 as -> ->. now split.
Qed.

Lemma shared_same i ops : forall x c,
  same_but (fun r => (fst r, shared_new (snd r))) (insert_all i ops x c)
    (insert_all (shared_partial i) ops (shared_new x) c).
Proof.
  induction ops as [|op ops IH]; intros x c; cbn [insert_all]; [now split|].
  assert (K : forall m : context Sp -> context Sp * dout Sp (bool * A),
    same_but (fun r => (fst r, shared_new (snd r)))
      (match m c with
       | (c', DOk (t, x')) =>
           match insert_all i ops x' c' with
           | (c'', DOk (ts, x'')) => (c'', DOk (t :: ts, x''))
           | (c'', DErr e) => (c'', DErr e)
           | (c'', DPanic) => (c'', DPanic)
           end
       | (c', DErr e) => (c', DErr e)
       | (c', DPanic) => (c', DPanic)
       end)
      (match d_map (fun '(t, x) => (t, shared_new x)) m c with
       | (c', DOk (t, x')) =>
           match insert_all (shared_partial i) ops x' c' with
           | (c'', DOk (ts, x'')) => (c'', DOk (t :: ts, x''))
           | (c'', DErr e) => (c'', DErr e)
           | (c'', DPanic) => (c'', DPanic)
           end
       | (c', DErr e) => (c', DErr e)
       | (c', DPanic) => (c', DPanic)
       end)).
  2: { destruct op as [n|k v]; [apply (K (pi_insert_child i x n))|apply (K (pi_insert_property i x k v))]. }
  intros m. unfold d_map, d_bind. destruct (m c) as [c' [[t x']|e|]]; try now split.
  unfold d_ok. specialize (IH x' c'). destruct (insert_all i ops x' c') as [c2 [[ts y]|e|]],
    (insert_all (shared_partial i) ops (shared_new x') c') as [c3 [[ts' y']|e'|]]; destruct IH as [E1 E2];
    cbn [fst snd] in *; try contradiction; subst; try now split.
  injection E2 as -> ->. now split.
Qed.

Lemma shared_panics i op ops p c : sh_owners p <> 1%N ->
  snd (insert_all (shared_partial i) (op :: ops) p c) = DPanic.
Proof.
  intros H. cbn [insert_all]. destruct op; cbn [shared_partial pi_insert_child pi_insert_property];
    unfold get_mut; destruct (N.eqb_spec (sh_owners p) 1); try contradiction; reflexivity.
Qed.

End Pointers.
