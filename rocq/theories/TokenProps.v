(** How the sets of expected tokens are shown. *)

From Coq Require Import NArith ZArith PeanoNat List Bool String Sorted Lia.
From Verif Require Import Chars Ast Errors Chumsky Spans Grammar Kdl ErrSpec TokenSet ErrProps.
Import ListNotations.

(** ** Merging *)

Lemma merge_union {Sp} l (s : Sp) f x l' s' f' y : tidy x -> tidy y ->
  exists z, merge (EUnexpected l s f x) (EUnexpected l' s' f' y) = Some (EUnexpected l s f z)
    /\ tidy z /\ forall k, In k z <-> In k x \/ In k y.
Proof.
  intros X [_ Y]. eexists. split; [reflexivity|]. split; [apply tidy_extend; assumption|apply extend_in].
Qed.

Lemma tidy_unique a b : tidy a -> tidy b -> (forall x, In x a <-> In x b) -> a = b.
Proof. intros [A _] [B _]. apply sorted_unique; assumption. Qed.

(** ** Messages *)

Lemma enumerated_commas a l b :
  enumerated (token_display a :: map token_display l ++ [token_display b])
    (token_display a ++ commas l ++ str " or " ++ token_display b).
Proof.
  revert a. induction l as [|c l IH]; intros a; cbn [map app commas].
  - apply En_two.
  - specialize (IH c). rewrite <- !app_assoc.
    destruct l as [|d l]; cbn [map app] in *; apply En_more; exact IH.
Qed.

Lemma message_some {Sp} l (s : Sp) f x : x <> [] -> exists e,
  enumerated (map token_display x) e
  /\ perror_message (EUnexpected l s f x)
     = str "found " ++ token_display f ++ str ", expected " ++ e.
Proof.
  intros N. cbn [perror_message]. unfold format_unexpected. destruct x as [|a r]; [contradiction|].
  destruct (rev r) as [|b m] eqn:R.
  - exists (token_display a). rewrite app_nil_r.
    assert (r = []) as -> by (rewrite <- (rev_involutive r), R; reflexivity).
    split; [constructor|reflexivity].
  - assert (r = rev m ++ [b]) as -> by (rewrite <- (rev_involutive r), R; reflexivity).
    exists (token_display a ++ commas (rev m) ++ str " or " ++ token_display b).
    cbn [map]. rewrite map_app. split; [apply enumerated_commas|reflexivity].
Qed.

Lemma message_none {Sp} l (s : Sp) f :
  perror_message (EUnexpected l s f []) = str "found " ++ token_display f.
Proof. cbn. unfold format_unexpected. rewrite app_nil_r. reflexivity. Qed.

(** ** Different tokens are shown differently. *)

Local Open Scope N_scope.
Ltac Zify.zify_post_hook ::= Z.to_euclidean_division_equations.

Definition hex_value (acc : N) (c : char) : N :=
  acc * 16 + (if c <? 0x61 then c - 0x30 else c - 0x61 + 10).

Lemma hex_digits_value f : forall n acc, n < 2 ^ N.of_nat f ->
  fold_left hex_value (hex_digits f n acc) 0 = fold_left hex_value acc n.
Proof.
  induction f as [|f IH]; intros n acc H.
  - cbn in H. assert (n = 0) as -> by lia. reflexivity.
  - assert (D : forall m, hex_value m (if n mod 16 <? 10 then 0x30 + n mod 16 else 0x61 + (n mod 16 - 10))
                = m * 16 + n mod 16).
    { intros m. unfold hex_value. destruct (N.ltb_spec (n mod 16) 10);
        match goal with |- context [if ?a <? ?b then _ else _] => destruct (N.ltb_spec a b) end; lia. }
    cbn [hex_digits]. destruct (N.eqb_spec (n / 16) 0) as [Z|Z].
    + cbn [fold_left]. rewrite D. f_equal. lia.
    + rewrite IH.
      * cbn [fold_left]. rewrite D. f_equal. lia.
      * rewrite Nat2N.inj_succ, N.pow_succ_r' in H. clear - H. lia.
Qed.

Lemma hex_inj a b : hex_digits (S (N.to_nat (N.log2 a))) a [] = hex_digits (S (N.to_nat (N.log2 b))) b []
  -> a = b.
Proof.
  intros H. apply (f_equal (fun l => fold_left hex_value l 0)) in H.
  assert (K : forall n, n < 2 ^ N.of_nat (S (N.to_nat (N.log2 n)))).
  { intros n. rewrite Nat2N.inj_succ, N2Nat.id. destruct (N.eq_dec n 0) as [->|Z]; [reflexivity|].
    apply N.log2_spec. lia. }
  rewrite !hex_digits_value in H by apply K. exact H.
Qed.

(** The part of the display of a character between the back quotes. *)
Definition shown (c : char) : text :=
  if (c =? 0x22) || (c =? 0x27) || (c =? 0x5C) then [c] else escape_default_char c.

Lemma char_display c : token_display (TChar c) = 0x60 :: shown c ++ [0x60].
Proof.
  cbn [token_display]. unfold shown.
  destruct ((c =? 0x22) || (c =? 0x27) || (c =? 0x5C)); reflexivity.
Qed.

Inductive shown_as (c : char) : text -> Prop :=
| Sh_self : 0x20 <= c <= 0x7E -> shown_as c [c]
| Sh_tab : c = 9 -> shown_as c [0x5C; 0x74]
| Sh_cr : c = 13 -> shown_as c [0x5C; 0x72]
| Sh_lf : c = 10 -> shown_as c [0x5C; 0x6E]
| Sh_hex : shown_as c (0x5C :: 0x75 :: 0x7B :: hex_digits (S (N.to_nat (N.log2 c))) c [] ++ [0x7D]).

Lemma shown_cases c : shown_as c (shown c).
Proof.
  unfold shown, escape_default_char.
  destruct (N.eqb_spec c 0x22); [subst; constructor; lia|].
  destruct (N.eqb_spec c 0x27); [subst; constructor; lia|].
  destruct (N.eqb_spec c 0x5C); [subst; constructor; lia|]. cbn [orb].
  destruct (N.eqb_spec c 9); [constructor; assumption|].
  destruct (N.eqb_spec c 13); [constructor; assumption|].
  destruct (N.eqb_spec c 10); [constructor; assumption|].
  destruct (N.leb_spec 0x20 c); [destruct (N.leb_spec c 0x7E)|]; cbn [andb].
  - constructor. lia.
  - apply Sh_hex.
  - apply Sh_hex.
Qed.

Lemma shown_inj a b : shown a = shown b -> a = b.
Proof.
  intros H. pose proof (shown_cases a) as A. pose proof (shown_cases b) as B. rewrite H in A.
  destruct A; inversion B; subst; try reflexivity; try discriminate; try congruence.
  match goal with K : _ ++ _ = _ ++ _ |- _ => apply app_inj_tail in K as [K _]; apply hex_inj in K end.
  auto.
Qed.

Lemma shown_char_start c : exists x l, token_display (TChar c) = 0x60 :: x :: l /\
  ((l = [0x60]) \/ x = 0x5C).
Proof.
  rewrite char_display. destruct (shown_cases c); cbn [app]; eexists _, _; split; eauto.
Qed.

Ltac finite_in H := cbn [In] in H; repeat (destruct H as [<-|H]; [|]); [..|destruct H].

Lemma display_inj a b : nameable a -> nameable b -> token_display a = token_display b -> a = b.
Proof.
  assert (CT : forall c s, nameable (TToken s) -> token_display (TChar c) <> token_display (TToken s)).
  { intros c s N E. destruct (shown_char_start c) as (x & l & K & D). rewrite K in E.
    cbn [nameable In] in N. destruct N as [<-|[<-|[<-|[]]]]; vm_compute in E; injection E as -> ->;
      destruct D; discriminate. }
  assert (CK : forall c s, nameable (TKind s) -> token_display (TChar c) <> token_display (TKind s)).
  { intros c s N E. rewrite char_display in E. cbn [nameable In] in N.
    repeat (destruct N as [<-|N]; [vm_compute in E; discriminate|]). destruct N. }
  assert (CE : forall c, token_display (TChar c) <> token_display TEoi).
  { intros c E. rewrite char_display in E. vm_compute in E. discriminate. }
  assert (TK : forall s s', nameable (TToken s) -> nameable (TKind s') ->
            token_display (TToken s) <> token_display (TKind s')).
  { intros s s' N N' E. cbn [token_display] in E. cbn [nameable In] in N'.
    repeat (destruct N' as [<-|N']; [vm_compute in E; discriminate|]). destruct N'. }
  assert (KE : forall s, nameable (TKind s) -> token_display (TKind s) <> token_display TEoi).
  { intros s N E. cbn [nameable In] in N.
    repeat (destruct N as [<-|N]; [vm_compute in E; discriminate|]). destruct N. }
  assert (TE : forall s, token_display (TToken s) <> token_display TEoi).
  { intros s E. vm_compute in E. discriminate. }
  assert (TT : forall s s', nameable (TToken s) -> nameable (TToken s') ->
            token_display (TToken s) = token_display (TToken s') -> s = s').
  { intros s s' N N' E. cbn [nameable In] in N, N'.
    destruct N as [<-|[<-|[<-|[]]]]; destruct N' as [<-|[<-|[<-|[]]]]; try reflexivity;
      vm_compute in E; discriminate. }
  destruct a, b; intros A B E; try contradiction;
    try (exfalso; first [eapply CT; [|exact E]; assumption|eapply CT; [|symmetry; exact E]; assumption
        |eapply CK; [|exact E]; assumption|eapply CK; [|symmetry; exact E]; assumption
        |eapply CE; exact E|eapply CE; symmetry; exact E
        |eapply TK; [| |exact E]; assumption|eapply TK; [| |symmetry; exact E]; assumption
        |eapply KE; [|exact E]; assumption|eapply KE; [|symmetry; exact E]; assumption
        |eapply TE; exact E|eapply TE; symmetry; exact E]).
  - f_equal. rewrite !char_display in E. injection E as E. apply app_inj_tail in E as [E _].
    apply shown_inj, E.
  - f_equal. apply TT; assumption.
  - cbn [token_display] in E. congruence.
  - reflexivity.
Qed.

Lemma tidy_displays l : tidy l -> NoDup (map token_display l).
Proof.
  intros [S N]. induction S as [|x l S IH F]; cbn [map]; constructor.
  - intros I. apply in_map_iff in I as (y & E & Y). inversion N as [|? ? Nx Nl]; subst.
    rewrite Forall_forall in F, Nl.
    assert (y = x) by (apply display_inj; auto). subst. exact (before_irrefl x (F x Y)).
  - apply IH. inversion N; assumption.
Qed.

Lemma expected_listed t errs : parse_ast_span t = Rejected errs ->
  forall label sp found expected, In (EUnexpected label sp found expected) errs ->
  StronglySorted before expected /\ NoDup (map token_display expected).
Proof.
  intros H label sp found expected I. pose proof (expected_tidy t errs H _ _ _ _ I) as T.
  split; [apply T|apply tidy_displays, T].
Qed.
