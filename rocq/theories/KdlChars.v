(** The character classes of the code are those of the KDL grammar. *)

From Coq Require Import NArith ZArith PeanoNat List Bool String Lia ZifyBool.
From Verif Require Import Chars Ast Kdl.
Import ListNotations.
Local Open Scope N_scope.

Ltac in_list :=
  repeat match goal with
  | H : In _ (_ :: _) |- _ => destruct H as [H|H]
  | H : In _ [] |- _ => destruct H
  end.

Lemma ws_char_spec c : is_ws_char c = true <-> In c ws_chars.
Proof.
  unfold is_ws_char, ws_chars. simpl. lia.
Qed.

Lemma newline_char_spec c : In c newline_chars <->
  (c = 0x0D \/ c = 0x0A \/ c = 0x0C \/ c = 0x85 \/ c = 0x2028 \/ c = 0x2029).
Proof. unfold newline_chars. simpl. intuition lia. Qed.

Lemma punct_spec c : is_punct c = true <-> In c punctuation.
Proof. unfold is_punct, punctuation. simpl. lia. Qed.

Lemma id_char_spec c : is_id_char c = true <-> ident_char c.
Proof.
  unfold is_id_char, ident_char. rewrite <- punct_spec, <- ws_char_spec, newline_char_spec.
  unfold is_uni_space, is_ws_char, is_punct. lia.
Qed.

Lemma to_digit_spec r c d : r <= 16 ->
  to_digit r c = Some d <-> digit_of r c d.
Proof.
  intros R. unfold to_digit, digit_of.
  split.
  - intros H.
    assert ((c = 0x30 + d /\ d < 10 \/ c = 0x61 + d - 10 /\ 10 <= d
             \/ c = 0x41 + d - 10 /\ 10 <= d) /\ d < r) as [K L].
    { destruct ((0x30 <=? c) && (c <=? 0x39)) eqn:A.
      - destruct (c - 0x30 <? r) eqn:B; inversion H; lia.
      - destruct ((0x61 <=? c) && (c <=? 0x7A)) eqn:A2.
        + destruct (c - 0x61 + 10 <? r) eqn:B; inversion H; lia.
        + destruct ((0x41 <=? c) && (c <=? 0x5A)) eqn:A3; [|discriminate].
          destruct (c - 0x41 + 10 <? r) eqn:B; inversion H; lia. }
    split; [exact L|].
    assert (d = 0 \/ d = 1 \/ d = 2 \/ d = 3 \/ d = 4 \/ d = 5 \/ d = 6 \/ d = 7
      \/ d = 8 \/ d = 9 \/ d = 10 \/ d = 11 \/ d = 12 \/ d = 13 \/ d = 14 \/ d = 15)
      as Q by lia.
    destruct K as [K|[K|K]]; [left|left|right];
    repeat (destruct Q as [Q|Q]; [subst d; destruct K as [K1 K2]; try lia; subst c;
      reflexivity|]); subst d; destruct K as [K1 K2]; try lia; subst c; reflexivity.
  - intros [L K].
    assert (d = 0 \/ d = 1 \/ d = 2 \/ d = 3 \/ d = 4 \/ d = 5 \/ d = 6 \/ d = 7
      \/ d = 8 \/ d = 9 \/ d = 10 \/ d = 11 \/ d = 12 \/ d = 13 \/ d = 14 \/ d = 15)
      as Q by lia.
    assert (c = 0x30 + d /\ d < 10 \/ c = 0x61 + d - 10 /\ 10 <= d
             \/ c = 0x41 + d - 10 /\ 10 <= d) as J.
    { destruct K as [K|K];
      repeat (destruct Q as [Q|Q]; [subst d; vm_compute in K; inversion K; lia|]);
      subst d; vm_compute in K; inversion K; lia. }
    clear K Q.
    destruct ((0x30 <=? c) && (c <=? 0x39)) eqn:A.
    + destruct (c - 0x30 <? r) eqn:B; [f_equal; lia|lia].
    + destruct ((0x61 <=? c) && (c <=? 0x7A)) eqn:A2.
      * destruct (c - 0x61 + 10 <? r) eqn:B; [f_equal; lia|lia].
      * destruct ((0x41 <=? c) && (c <=? 0x5A)) eqn:A3; [|lia].
        destruct (c - 0x41 + 10 <? r) eqn:B; [f_equal; lia|lia].
Qed.

Lemma is_digit_spec r c : r <= 16 -> is_digit r c = true <-> digit_char r c.
Proof.
  intros R. unfold is_digit, digit_char.
  destruct (to_digit r c) as [d|] eqn:T; split; try discriminate; auto.
  - intros _. exists d. apply to_digit_spec; auto.
  - intros [d D]. apply to_digit_spec in D; [congruence|auto].
Qed.

Lemma dec_digit_spec c : digit_char 10 c <-> (0x30 <= c /\ c <= 0x39).
Proof.
  rewrite <- is_digit_spec by lia. unfold is_digit, to_digit.
  destruct ((0x30 <=? c) && (c <=? 0x39)) eqn:A.
  - destruct (c - 0x30 <? 10) eqn:B; lia.
  - destruct ((0x61 <=? c) && (c <=? 0x7A)) eqn:A2.
    + destruct (c - 0x61 + 10 <? 10) eqn:B; lia.
    + destruct ((0x41 <=? c) && (c <=? 0x5A)) eqn:A3.
      * destruct (c - 0x41 + 10 <? 10) eqn:B; lia.
      * lia.
Qed.

Lemma id_sans_dig_spec c : is_id_sans_dig c = true <-> ident_start c.
Proof.
  unfold is_id_sans_dig, ident_start, ident_char.
  rewrite <- punct_spec, <- ws_char_spec, newline_char_spec, dec_digit_spec.
  unfold is_uni_space, is_ws_char, is_punct, is_dec_digit. lia.
Qed.

Lemma id_sans_sign_dig_spec c : is_id_sans_sign_dig c = true <->
  ident_start c /\ ~ sign_char c.
Proof.
  unfold is_id_sans_sign_dig, ident_start, ident_char, sign_char.
  rewrite <- punct_spec, <- ws_char_spec, newline_char_spec, dec_digit_spec.
  unfold is_uni_space, is_ws_char, is_punct, is_dec_digit. lia.
Qed.

Lemma is_scalar_spec c : is_scalar c = true <-> scalar_value c.
Proof. unfold is_scalar, scalar_value. lia. Qed.
