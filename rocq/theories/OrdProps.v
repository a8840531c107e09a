(** Comparison of spanned values, and lookup in property maps. *)

From Coq Require Import NArith List Bool.
From Verif Require Import Chars Ast Errors Chumsky Kdl LexIdent PropMap SpanOps.
Import ListNotations.

(** The laws of [Eq], [Ord] and [Hash] that the standard library asks for. *)
Record lawful {T} (eq : T -> T -> bool) (cmp : T -> T -> comparison) (hash : T -> list N) : Prop := {
  l_refl : forall a, eq a a = true;
  l_cmp : forall a b, cmp a b = Eq <-> eq a b = true;
  l_flip : forall a b, cmp b a = CompOpp (cmp a b);
  l_trans : forall a b c, cmp a b = Lt -> cmp b c = Lt -> cmp a c = Lt;
  l_cong : forall a b c, eq a b = true -> cmp a c = cmp b c;
  l_hash : forall a b, eq a b = true -> hash a = hash b;
}.

Lemma spanned_lawful {T Sp} (eq : T -> T -> bool) cmp hash : lawful eq cmp hash ->
  lawful (T := spanned T Sp) (spanned_eq eq) (spanned_cmp cmp) (spanned_hash hash).
Proof.
  intros [R C F Tr Cg H]. constructor; unfold spanned_eq, spanned_cmp, spanned_hash; eauto.
Qed.

Lemma text_lawful : lawful text_eqb text_compare (fun t => t).
Proof.
  constructor.
  - intros a. apply LexIdent.text_eqb_spec. reflexivity.
  - intros a b. rewrite text_compare_eq, LexIdent.text_eqb_spec. reflexivity.
  - apply text_compare_antisym.
  - apply text_compare_trans.
  - intros a b c E. apply LexIdent.text_eqb_spec in E. subst. reflexivity.
  - intros a b E. apply LexIdent.text_eqb_spec. exact E.
Qed.

Lemma get_in {Sp} n (m : list (spanned text Sp * value Sp)) v : increasing m ->
  props_get n m = Some v <-> exists k, In (k, v) m /\ s_value k = n.
Proof.
  induction 1 as [|[k w] m I IH L]; cbn [props_get].
  - split; [discriminate|intros (k & [] & _)].
  - destruct (text_compare n (s_value k)) eqn:C.
    + apply text_compare_eq in C. split.
      * intros H. injection H as <-. exists k. split; [left; reflexivity|auto].
      * intros (k' & [H|H] & E); [congruence|]. exfalso. specialize (L _ H). cbn in L.
        unfold key_of in L. cbn in L. rewrite E, <- C, text_compare_refl in L. discriminate.
    + rewrite IH. split; intros (k' & H & E); exists k'; (split; [|exact E]); [right; exact H|].
      destruct H as [H|H]; [|exact H]. injection H as -> ->. rewrite E, text_compare_refl in C. discriminate.
    + rewrite IH. split; intros (k' & H & E); exists k'; (split; [|exact E]); [right; exact H|].
      destruct H as [H|H]; [|exact H]. injection H as -> ->. rewrite E, text_compare_refl in C. discriminate.
Qed.

Lemma spans_do_not_matter {T Sp} (eq : T -> T -> bool) pcmp cmp hash (s s' r r' : Sp) (a b : T) :
  spanned_eq eq (Spanned s a) (Spanned r b) = spanned_eq eq (Spanned s' a) (Spanned r' b)
  /\ spanned_partial_cmp pcmp (Spanned s a) (Spanned r b) = spanned_partial_cmp pcmp (Spanned s' a) (Spanned r' b)
  /\ spanned_cmp cmp (Spanned s a) (Spanned r b) = spanned_cmp cmp (Spanned s' a) (Spanned r' b)
  /\ spanned_hash hash (Spanned s a) = spanned_hash hash (Spanned s' a).
Proof. repeat split. Qed.
