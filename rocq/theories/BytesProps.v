(** Properties of [bytes]: UTF-8 and base64. *)

From Coq Require Import NArith ZArith List Bool Lia String.
From Verif Require Import Chars Ast Errors Chumsky Decode Scalar Containers DecodeSpec.
Import ListNotations.
Local Open Scope N_scope.
Ltac Zify.zify_post_hook ::= Z.to_euclidean_division_equations.

(** ** UTF-8 *)

Definition unicode (c : char) : Prop := c <= 0x10FFFF.

Lemma utf8_char_spec c : unicode c -> utf8_spec c (utf8_char c).
Proof.
  unfold unicode, utf8_char. intros H.
  destruct (N.ltb_spec c 0x80); [apply U1; lia|].
  destruct (N.ltb_spec c 0x800); [apply U2; unfold tail_byte; change (2 ^ 6) with 64; lia|].
  destruct (N.ltb_spec c 0x10000).
  { apply U3; unfold tail_byte; change (2 ^ 6) with 64; change (2 ^ 12) with 4096; lia. }
  apply U4; unfold tail_byte; change (2 ^ 6) with 64; change (2 ^ 12) with 4096;
    change (2 ^ 18) with 262144; lia.
Qed.

Lemma utf8_spec_fun c b b' : utf8_spec c b -> utf8_spec c b' -> b = b'.
Proof.
  intros H H'. destruct H as [c H|c a b H A B E|c a b d H A B D E|c a b d e H A B D E' E];
    inversion H' as [? G|? a' b1 G A1 B1 E1|? a' b1 d1 G A1 B1 D1 E1|? a' b1 d1 e1 G A1 B1 D1 F1 E1];
    subst; clear H'; unfold tail_byte in *;
    change (2 ^ 6) with 64 in *; change (2 ^ 12) with 4096 in *; change (2 ^ 18) with 262144 in *;
    try lia; repeat f_equal; lia.
Qed.

Lemma utf8_text_spec t : Forall unicode t -> utf8_text t (utf8 t).
Proof.
  induction 1 as [|c t H F IH]; [constructor|]. cbn [utf8 flat_map].
  constructor; [apply utf8_char_spec; exact H|exact IH].
Qed.

Lemma utf8_text_fun t b : utf8_text t b -> forall b', utf8_text t b' -> b = b'.
Proof.
  induction 1 as [|c t b bs H F IH]; intros b' H'; inversion H' as [|? ? b1 bs1 H1 F1]; subst;
    [reflexivity|].
  rewrite (utf8_spec_fun _ _ _ H H1), (IH _ F1). reflexivity.
Qed.

Lemma utf8_iff t b : Forall unicode t -> utf8 t = b <-> utf8_text t b.
Proof.
  intros U. split.
  - intros <-. apply utf8_text_spec, U.
  - intros H. apply (utf8_text_fun t); [apply utf8_text_spec, U|exact H].
Qed.

Lemma utf8_ascii t : Forall (fun c => c < 0x80) t -> utf8 t = t.
Proof.
  induction 1 as [|c t H F IH]; [reflexivity|]. cbn [utf8 flat_map]. unfold utf8_char at 1.
  destruct (N.ltb_spec c 0x80); [|lia]. cbn [app]. f_equal. exact IH.
Qed.

Lemma ascii_utf8 t : Forall (fun c => c < 0x80) (utf8 t) -> utf8 t = t.
Proof.
  intros H. apply utf8_ascii. induction t as [|c t IH]; constructor;
    cbn [utf8 flat_map] in H; apply Forall_app in H as [H1 H2].
  - unfold utf8_char in H1. destruct (N.ltb_spec c 0x80); [assumption|].
    destruct (c <? 0x800); [|destruct (c <? 0x10000)]; apply Forall_inv in H1; cbv beta in H1; clear - H1; lia.
  - apply IH. exact H2.
Qed.

(** ** Base64 *)

Fixpoint up (n : nat) : list N :=
  match n with O => [] | S n => up n ++ [N.of_nat n] end.
Lemma up_in n k : k < N.of_nat n -> In k (up n).
Proof.
  induction n as [|n IH]; [lia|]. intros H. cbn [up]. apply in_app_iff.
  destruct (N.eq_dec k (N.of_nat n)) as [->|]; [right; left; reflexivity|left; apply IH; lia].
Qed.

Lemma digit_char n : n < 64 -> b64_digit (b64_char n) = Some n.
Proof.
  intros H. apply (up_in 64) in H.
  assert (F : forallb (fun n => match b64_digit (b64_char n) with Some m => m =? n | None => false end)
                (up 64) = true) by (vm_compute; reflexivity).
  rewrite forallb_forall in F. specialize (F n H).
  destruct (b64_digit (b64_char n)); [|discriminate]. apply N.eqb_eq in F. subst. reflexivity.
Qed.

Lemma char_ascii n : n < 64 -> b64_char n < 0x80 /\ b64_char n <> 0x3D.
Proof.
  intros H. apply (up_in 64) in H.
  assert (F : forallb (fun n => (b64_char n <? 0x80) && negb (b64_char n =? 0x3D)) (up 64) = true)
    by (vm_compute; reflexivity).
  rewrite forallb_forall in F. specialize (F n H). apply andb_true_iff in F as [F1 F2].
  apply N.ltb_lt in F1. apply negb_true_iff, N.eqb_neq in F2. auto.
Qed.

Lemma char_digit c n : b64_digit c = Some n -> c = b64_char n /\ n < 64.
Proof.
  intros H. assert (K : c < N.of_nat 123).
  { unfold b64_digit in H.
    repeat match type of H with
           | (if ?b then _ else _) = _ => destruct b eqn:?
           end; try discriminate; rewrite ?andb_true_iff, ?N.leb_le, ?N.eqb_eq in *; cbn; lia. }
  apply up_in in K.
  assert (F : forallb (fun c => match b64_digit c with
                                | Some n => (c =? b64_char n) && (n <? 64) | None => true end)
                (up 123) = true) by (vm_compute; reflexivity).
  rewrite forallb_forall in F. specialize (F c K). rewrite H in F.
  apply andb_true_iff in F as [F1 F2]. apply N.eqb_eq in F1. apply N.ltb_lt in F2. auto.
Qed.

Lemma list3_ind {A} (P : list A -> Prop) :
  P [] -> (forall x, P [x]) -> (forall x y, P [x; y]) ->
  (forall x y z l, P l -> P (x :: y :: z :: l)) -> forall l, P l.
Proof.
  intros H0 H1 H2 H3. fix go 1. intros [|x [|y [|z l]]];
    [exact H0|apply H1|apply H2|apply H3, go].
Qed.

Lemma list4_ind {A} (P : list A -> Prop) :
  P [] -> (forall x, P [x]) -> (forall x y, P [x; y]) -> (forall x y z, P [x; y; z]) ->
  (forall x y z w l, P l -> P (x :: y :: z :: w :: l)) -> forall l, P l.
Proof.
  intros H0 H1 H2 H3 H4. fix go 1. intros [|x [|y [|z [|w l]]]];
    [exact H0|apply H1|apply H2|apply H3|apply H4, go].
Qed.

Lemma decode_encode b : Forall byte b -> b64_decode (b64_encode b) = Some b.
Proof.
  induction b as [|x|x y|x y z l IH] using list3_ind; intros F; unfold byte in F.
  - reflexivity.
  - inversion F as [|? ? X _]; subst. cbn [b64_encode b64_decode].
    change (2 ^ 16) with 65536. change (2 ^ 18) with 262144. change (2 ^ 12) with 4096.
    rewrite !digit_char by lia. cbn [N.eqb Pos.eqb andb].
    replace ((x * 65536 / 4096) mod 64 mod 16) with 0 by lia. cbn [N.eqb].
    repeat f_equal. lia.
  - inversion F as [|? ? X F1]; subst. inversion F1 as [|? ? Y _]; subst.
    cbn [b64_encode b64_decode].
    change (2 ^ 16) with 65536. change (2 ^ 18) with 262144. change (2 ^ 12) with 4096.
    change (2 ^ 8) with 256. change (2 ^ 6) with 64.
    set (n := x * 65536 + y * 256).
    assert (N1 : n / 262144 < 64) by lia.
    assert (N3 : n / 64 mod 64 < 64) by lia.
    rewrite !digit_char by lia. destruct (char_ascii _ N3) as [_ N4]. apply N.eqb_neq in N4.
    rewrite N4. cbn [N.eqb Pos.eqb andb].
    replace ((n / 64) mod 64 mod 4) with 0 by lia. cbn [N.eqb].
    repeat f_equal; lia.
  - inversion F as [|? ? X F1]; subst. inversion F1 as [|? ? Y F2]; subst.
    inversion F2 as [|? ? Z F3]; subst.
    cbn [b64_encode b64_decode].
    change (2 ^ 16) with 65536. change (2 ^ 18) with 262144. change (2 ^ 12) with 4096.
    change (2 ^ 8) with 256. change (2 ^ 6) with 64.
    set (n := x * 65536 + y * 256 + z).
    assert (N1 : n / 262144 < 64) by lia.
    assert (N3 : n / 64 mod 64 < 64) by lia.
    assert (N5 : n mod 64 < 64) by lia.
    rewrite !digit_char by lia. destruct (char_ascii _ N3) as [_ N4]. apply N.eqb_neq in N4.
    destruct (char_ascii _ N5) as [_ N6]. apply N.eqb_neq in N6.
    rewrite N4, N6. cbn [andb].
    rewrite IH by exact F3. repeat f_equal; lia.
Qed.

Lemma encode_decode s : forall b, b64_decode s = Some b -> s = b64_encode b /\ Forall byte b.
Proof.
  induction s as [|x|x y|x y z|p q r t l IH] using list4_ind; intros b H; try discriminate.
  { injection H as <-. split; [reflexivity|constructor]. }
  cbn [b64_decode] in H.
  destruct (b64_digit p) as [x|] eqn:P; [|discriminate]. apply char_digit in P as [-> X].
  destruct (b64_digit q) as [y|] eqn:Q; [|discriminate]. apply char_digit in Q as [-> Y].
  destruct ((r =? 61) && (t =? 61) && match l with [] => true | _ => false end) eqn:E.
  - apply andb_true_iff in E as [E L]. apply andb_true_iff in E as [R T].
    apply N.eqb_eq in R, T. subst r t. destruct l; [|discriminate].
    destruct (N.eqb_spec (y mod 16) 0) as [M|M]; [|discriminate]. injection H as <-.
    split; [|constructor; [unfold byte; lia|constructor]].
    cbn [b64_encode]. change (2 ^ 16) with 65536. change (2 ^ 18) with 262144. change (2 ^ 12) with 4096.
    repeat f_equal; lia.
  - destruct (b64_digit r) as [z|] eqn:R; [|discriminate]. apply char_digit in R as [-> Z].
    destruct ((t =? 61) && match l with [] => true | _ => false end) eqn:E'.
    + apply andb_true_iff in E' as [T L]. apply N.eqb_eq in T. subst t. destruct l; [|discriminate].
      destruct (N.eqb_spec (z mod 4) 0) as [M|M]; [|discriminate]. injection H as <-.
      split; [|constructor; [unfold byte; lia|constructor; [unfold byte; lia|constructor]]].
      cbn [b64_encode]. change (2 ^ 16) with 65536. change (2 ^ 18) with 262144.
      change (2 ^ 12) with 4096. change (2 ^ 8) with 256. change (2 ^ 6) with 64.
      repeat f_equal; lia.
    + destruct (b64_digit t) as [w|] eqn:T; [|discriminate]. apply char_digit in T as [-> W].
      destruct (b64_decode l) as [b'|]; [|discriminate]. injection H as <-.
      destruct (IH b' eq_refl) as [-> F].
      split; [|constructor; [unfold byte; lia|constructor; [unfold byte; lia|
                 constructor; [unfold byte; lia|exact F]]]].
      cbn [b64_encode]. change (2 ^ 16) with 65536. change (2 ^ 18) with 262144.
      change (2 ^ 12) with 4096. change (2 ^ 8) with 256. change (2 ^ 6) with 64.
      repeat f_equal; lia.
Qed.

Lemma encode_ascii b : Forall byte b -> Forall (fun c => c < 0x80) (b64_encode b).
Proof.
  induction b as [|x|x y|x y z l IH] using list3_ind; intros F; unfold byte in F; cbn [b64_encode];
    change (2 ^ 16) with 65536; change (2 ^ 18) with 262144;
    change (2 ^ 12) with 4096; change (2 ^ 8) with 256; change (2 ^ 6) with 64.
  - constructor.
  - inversion F as [|? ? X _]; subst.
    repeat (constructor; [first [lia|apply char_ascii; lia]|]). constructor.
  - inversion F as [|? ? X F1]; subst. inversion F1 as [|? ? Y _]; subst.
    repeat (constructor; [first [lia|apply char_ascii; lia]|]). constructor.
  - inversion F as [|? ? X F1]; subst. inversion F1 as [|? ? Y F2]; subst.
    inversion F2 as [|? ? Z F3]; subst.
    repeat (constructor; [first [lia|apply char_ascii; lia]|]). exact (IH F3).
Qed.

Lemma b64_iff s b : b64_decode (utf8 s) = Some b <-> s = b64_encode b /\ Forall byte b.
Proof.
  split.
  - intros H. apply encode_decode in H as [H F]. split; [|exact F]. rewrite <- H. symmetry.
    apply ascii_utf8. rewrite H. apply encode_ascii, F.
  - intros [-> F]. rewrite utf8_ascii by (apply encode_ascii, F). apply decode_encode, F.
Qed.

(** ** [bytes] *)

Lemma bytes_iff {Sp} (v : value Sp) c b :
  (forall s, s_value (v_literal v) = LString s -> Forall unicode s) ->
  bytes v c = (c, b) <->
  exists s, s_value (v_literal v) = LString s
    /\ ((v_type_name v = None /\ utf8_text s b)
        \/ (exists sp, v_type_name v = Some (Spanned sp (Builtin Base64))
              /\ s = b64_encode b /\ Forall byte b)).
Proof.
  intros U.
  assert (G : forall e es, c = emit_error (Sp := Sp) e c -> es = b -> False).
  { intros e es K _. apply (f_equal (fun c => List.length (c_errors c))) in K. cbn in K.
    rewrite app_length in K. cbn in K. lia. }
  unfold bytes. destruct (v_type_name v) as [[tsp ty]|]; cbn [s_value s_span].
  - assert (K : typename_as_builtin ty = Some Base64 \/ typename_as_builtin ty <> Some Base64)
      by (destruct ty as [[]|]; cbn; auto; right; discriminate).
    destruct K as [K|K].
    + rewrite K. destruct ty as [bt|]; [|discriminate]. injection K as ->.
      destruct (s_value (v_literal v)) as [|x|r x|x|s] eqn:L;
        try (split; [intros J; injection J as J1 J2; destruct (G _ _ (eq_sym J1) J2)
                    |intros (s' & J & _); discriminate]).
      destruct (b64_decode (utf8 s)) as [b'|] eqn:D.
      * apply b64_iff in D as [D1 D2]. split.
        -- intros J. injection J as <-. exists s. split; auto. right. eauto.
        -- intros (s' & J & [[J' _]|(sp & _ & J2 & J3)]); [discriminate|]. injection J as <-.
           f_equal. assert (E : b64_decode (b64_encode b) = Some b) by (apply decode_encode, J3).
           rewrite <- J2, D1, decode_encode in E by exact D2. congruence.
      * split.
        -- intros J. injection J as J1 J2. destruct (G _ _ (eq_sym J1) J2).
        -- intros (s' & J & [[J' _]|(sp & _ & J2 & J3)]); [discriminate|]. injection J as <-.
           assert (E : b64_decode (utf8 s) = Some b) by (apply b64_iff; auto). congruence.
    + assert (S : match typename_as_builtin ty with
                  | Some Base64 => match s_value (v_literal v) with
                     | LString s => match b64_decode (utf8 s) with
                         | Some b => (c, b)
                         | None => (emit_error (conversion (v_literal v) (SOther 64)) c, [])
                         end
                     | _ => (emit_error (scalar_kind KString (v_literal v)) c, [])
                     end
                  | _ => (emit_error (DTypeName tsp (Some ty) (et_optional (Builtin Base64))
                       (str "bytes")) c, [])
                  end = (emit_error (DTypeName tsp (Some ty) (et_optional (Builtin Base64))
                       (str "bytes")) c, [])) by (destruct ty as [[]|]; try reflexivity; contradiction).
      rewrite S. split.
      * intros J. injection J as J1 J2. destruct (G _ _ (eq_sym J1) J2).
      * intros (s' & _ & [[J _]|(sp & J & _)]); [discriminate|]. injection J as _ ->. contradiction.
  - destruct (s_value (v_literal v)) as [|x|r x|x|s] eqn:L;
      try (split; [intros J; injection J as J1 J2; destruct (G _ _ (eq_sym J1) J2)
                  |intros (s' & J & _); discriminate]).
    split.
    + intros J. injection J as <-. exists s. split; auto. left. split; auto.
      apply utf8_text_spec, U. reflexivity.
    + intros (s' & J & [[_ J']|(sp & J' & _)]); [|discriminate]. injection J as <-.
      apply utf8_iff in J'; [|apply U; reflexivity]. rewrite J'. reflexivity.
Qed.

Lemma bytes_total {Sp} (v : value Sp) c :
  (exists b, bytes v c = (c, b)) \/ (exists e, bytes v c = (emit_error e c, [])).
Proof.
  unfold bytes. destruct (v_type_name v) as [[tsp ty]|]; cbn [s_value s_span];
  [destruct (typename_as_builtin ty) as [[]|]|]; eauto;
    destruct (s_value (v_literal v)) as [|x|r x|x|s]; eauto.
  destruct (b64_decode (utf8 s)); eauto.
Qed.
