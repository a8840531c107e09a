(** Safety of the parsers of Grammar.v whose errors can always be merged: all
    of them below [prop_or_arg_inner]. *)

From Coq Require Import NArith PeanoNat List Bool String Lia Wf_nat.
From Verif Require Import Chars Ast Errors Chumsky Spans Grammar Safe.
Import ListNotations.
Local Open Scope list_scope.

Create HintDb safe.
#[export] Hint Transparent text char : safe.
Ltac foralls := repeat (apply Forall_cons || apply Forall_nil).

Section GrammarSafe.
Context {Sp : Type} {E : env Sp}.

Notation parser := (parser Sp).
Notation toks := (toks Sp).
Notation len := (@List.length (tok Sp)).

Definition Safe {A} (p : parser A) : Prop := forall n, safe n p.

Lemma S_then {A B} (p : parser A) (q : parser B) :
  Safe p -> Safe q -> Safe (p_then p q).
Proof. intros P Q n. apply safe_then with 0; auto. now apply safe_eats0. Qed.
Lemma S_bind {A B} (p : parser A) (q : A -> parser B) :
  Safe p -> (forall a, Safe (q a)) -> Safe (p_bind p q).
Proof.
  intros P Q n. apply safe_bind with 0; auto.
  - now apply safe_eats0.
  - intros _ a. apply Q.
Qed.
Lemma S_ignore_then {A B} (p : parser A) (q : parser B) :
  Safe p -> Safe q -> Safe (p_ignore_then p q).
Proof. intros P Q n. apply safe_ignore_then with 0; auto. now apply safe_eats0. Qed.
Lemma S_then_ignore {A B} (p : parser A) (q : parser B) :
  Safe p -> Safe q -> Safe (p_then_ignore p q).
Proof. intros P Q n. apply safe_then_ignore with 0; auto. now apply safe_eats0. Qed.
Lemma S_delimited {A B C} (p : parser A) (o : parser B) (c : parser C) :
  Safe p -> Safe o -> Safe c -> Safe (p_delimited p o c).
Proof. intros. apply S_then_ignore; auto. now apply S_ignore_then. Qed.
Lemma S_map {A B} (f : A -> B) p : Safe p -> Safe (p_map f p).
Proof. intros P n. now apply safe_map. Qed.
Lemma S_ignored {A} (p : parser A) : Safe p -> Safe (p_ignored p).
Proof. intros P n. now apply safe_ignored. Qed.
Lemma S_map_with_span {A B} (f : A -> Sp -> B) p :
  Safe p -> Safe (p_map_with_span f p).
Proof. intros P n. now apply safe_map_with_span. Qed.
Lemma S_map_err {A} f (p : parser A) :
  (forall e, mergeable e -> mergeable (f e)) -> Safe p -> Safe (p_map_err f p).
Proof. intros F P n. now apply safe_map_err. Qed.
Lemma S_try_map {A B} (f : A -> Sp -> B + perror Sp) p :
  (forall a s e, f a s = inr e -> mergeable e) -> Safe p -> Safe (p_try_map f p).
Proof. intros F P n. now apply safe_try_map. Qed.
Lemma S_or {A} (p q : parser A) : Safe p -> Safe q -> Safe (p_or p q).
Proof. intros P Q n. now apply safe_or. Qed.
Lemma S_choice {A} (ps : list (parser A)) :
  ps <> [] -> Forall Safe ps -> Safe (p_choice ps).
Proof.
  intros P Q n. apply safe_choice; auto.
  eapply Forall_impl; [|exact Q]. intros p H. apply H.
Qed.
Lemma S_or_not {A} (p : parser A) : Safe p -> Safe (p_or_not p).
Proof. intros P n. now apply safe_or_not. Qed.
Lemma S_rewind {A} (p : parser A) : Safe p -> Safe (p_rewind p).
Proof. intros P n. now apply safe_rewind. Qed.
Lemma S_repeat {A} al am (p : parser A) :
  Safe p -> eats 1 p -> Safe (p_repeat al am p).
Proof. intros P Q n. now apply safe_repeat. Qed.
Lemma S_repeated {A} (p : parser A) : Safe p -> eats 1 p -> Safe (p_repeated p).
Proof. apply S_repeat. Qed.
Lemma S_exactly {A} n (p : parser A) : Safe p -> eats 1 p -> Safe (p_exactly n p).
Proof. apply S_repeat. Qed.
Lemma S_take_until {A} (p : parser A) : Safe p -> Safe (p_take_until p).
Proof. intros P n. now apply safe_take_until. Qed.
Lemma S_validate {A B} (f : A -> Sp -> B * option (perror Sp)) p :
  Safe p -> Safe (p_validate f p).
Proof. intros P n. now apply safe_validate. Qed.
Lemma S_spanned {A} (p : parser A) : Safe p -> Safe (p_spanned p).
Proof. apply S_map_with_span. Qed.
Lemma eats_spanned {A} k (p : parser A) : eats k p -> eats k (p_spanned p).
Proof. apply eats_map_with_span. Qed.

Lemma S_just x : Safe (p_just x). Proof. intros n. apply safe_just. Qed.
Lemma S_filter x : Safe (p_filter x). Proof. intros n. apply safe_filter. Qed.
Lemma S_none_of x : Safe (p_none_of x). Proof. apply S_filter. Qed.
Lemma S_just_str x : Safe (p_just_str x). Proof. intros n. apply safe_just_str. Qed.
Lemma S_end : Safe p_end. Proof. intros n. apply safe_end. Qed.

Lemma mergeable_kind k (e : perror Sp) :
  mergeable e -> mergeable (with_expected_kind k e).
Proof. now destruct e. Qed.
Lemma mergeable_token k (e : perror Sp) :
  mergeable e -> mergeable (with_expected_token k e).
Proof. now destruct e. Qed.
Lemma mergeable_no (e : perror Sp) : mergeable e -> mergeable (with_no_expected e).
Proof. now destruct e. Qed.

Hint Resolve S_then S_bind S_ignore_then S_then_ignore S_delimited S_map
  S_ignored S_map_with_span S_map_err S_or S_choice S_or_not S_rewind
  S_repeat S_repeated S_exactly S_take_until S_spanned S_validate
  S_just S_filter S_none_of S_just_str S_end
  mergeable_kind mergeable_token mergeable_no : safe.

Lemma eats0 {A} (p : parser A) : Safe p -> eats 0 p.
Proof. apply safe_eats0. Qed.

End GrammarSafe.

#[export] Hint Resolve S_then S_bind S_ignore_then S_then_ignore S_delimited S_map
  S_ignored S_map_with_span S_map_err S_or S_choice S_or_not S_rewind
  S_repeat S_repeated S_exactly S_take_until S_spanned S_validate
  S_just S_filter S_none_of S_just_str S_end
  mergeable_kind mergeable_token mergeable_no : safe.

(** Proves [eats 1 p] by finding a component that consumes. *)
Ltac eat1 :=
  lazymatch goal with
  | |- eats 0 _ => apply eats0;
      first [solve [auto with safe] | apply S_repeated; auto with safe | idtac]
  | |- eats 1 (p_just _) => apply eats_just
  | |- eats 1 (p_filter _) => apply eats_filter
  | |- eats 1 (p_none_of _) => apply eats_filter
  | |- eats 1 (p_filter_map _) => apply eats_filter_map
  | |- eats 1 (p_just_str _) =>
      eapply eats_le; [apply eats_just_str | simpl; lia]
  | |- eats _ (p_map _ _) => apply eats_map; eat1
  | |- eats _ (p_ignored _) => apply eats_ignored; eat1
  | |- eats _ (p_spanned _) => apply eats_spanned; eat1
  | |- eats _ (p_map_with_span _ _) => apply eats_map_with_span; eat1
  | |- eats _ (p_map_err _ _) => apply eats_map_err; eat1
  | |- eats _ (p_try_map _ _) => apply eats_try_map; eat1
  | |- eats _ (p_validate _ _) => apply eats_validate; eat1
  | |- eats _ (p_or _ _) => apply eats_or; eat1
  | |- eats _ (p_choice _) => apply eats_choice; foralls; eat1
  | |- eats 1 (p_then _ _) =>
      first [ apply (eats_then 1 0); eat1 | apply (eats_then 0 1); eat1 ]
  | |- eats 1 (p_ignore_then _ _) =>
      first [ apply (eats_ignore_then 1 0); eat1
            | apply (eats_ignore_then 0 1); eat1 ]
  | |- eats 1 (p_then_ignore _ _) =>
      first [ apply (eats_then_ignore 1 0); eat1
            | apply (eats_then_ignore 0 1); eat1 ]
  | |- eats 1 (p_repeat 1 _ _) => apply eats_repeat; [eat1 | simpl; auto]
  | |- eats 1 (p_delimited _ _ _) => apply (eats_delimited 1 0 0); eat1
  | |- _ => solve [auto with safe]
  end.

Section GrammarSafe2.
Context {Sp : Type} {E : env Sp}.

Notation parser := (parser Sp).
Notation toks := (toks Sp).
Notation len := (@List.length (tok Sp)).

Lemma S_begin_comment c : Safe (begin_comment c).
Proof. unfold begin_comment. auto with safe. Qed.
Lemma eats_begin_comment c : eats 2 (begin_comment c).
Proof.
  unfold begin_comment. apply (eats_ignore_then 1 1).
  - apply eats_map_err, eats_just.
  - apply eats_ignored, eats_just.
Qed.
Lemma eats1_begin_comment c : eats 1 (begin_comment c).
Proof. eapply eats_le; [apply eats_begin_comment|lia]. Qed.
Hint Resolve S_begin_comment eats1_begin_comment : safe.

Lemma S_newline : Safe newline.
Proof. unfold newline. auto 20 with safe. Qed.
Lemma eats_newline : eats 1 newline.
Proof. unfold newline. eat1. Qed.
Hint Resolve S_newline eats_newline : safe.

Lemma S_ws_char : Safe ws_char.
Proof. unfold ws_char. auto with safe. Qed.
Lemma eats_ws_char : eats 1 ws_char.
Proof. unfold ws_char. eat1. Qed.
Hint Resolve S_ws_char eats_ws_char : safe.

Lemma S_id_char : Safe id_char.
Proof. unfold id_char. auto with safe. Qed.
Lemma eats_id_char : eats 1 id_char.
Proof. unfold id_char. eat1. Qed.
Lemma S_id_sans_dig : Safe id_sans_dig.
Proof. unfold id_sans_dig. auto with safe. Qed.
Lemma eats_id_sans_dig : eats 1 id_sans_dig.
Proof. unfold id_sans_dig. eat1. Qed.
Lemma S_id_sans_sign_dig : Safe id_sans_sign_dig.
Proof. unfold id_sans_sign_dig. auto with safe. Qed.
Lemma eats_id_sans_sign_dig : eats 1 id_sans_sign_dig.
Proof. unfold id_sans_sign_dig. eat1. Qed.
Hint Resolve S_id_char eats_id_char S_id_sans_dig eats_id_sans_dig
  S_id_sans_sign_dig eats_id_sans_sign_dig : safe.

(** Comments: the recursion never runs out of fuel. *)
Lemma ml_choice_safe n (p : parser unit) : safe n p -> eats 1 p ->
  safe n (p_choice
        [ p;
          p_ignored (p_none_of 0x2A%N);
          p_ignored (p_then_ignore (p_just 0x2A%N) (p_rewind (p_none_of 0x2F%N)))
        ])
  /\ eats 1 (p_choice
        [ p;
          p_ignored (p_none_of 0x2A%N);
          p_ignored (p_then_ignore (p_just 0x2A%N) (p_rewind (p_none_of 0x2F%N)))
        ]).
Proof.
  intros Hp He. split.
  - apply safe_choice; [discriminate|]. foralls; auto.
    + apply (S_ignored (p_none_of 0x2A%N)). auto with safe.
    + apply (S_ignored (p_then_ignore (p_just 0x2A%N) (p_rewind (p_none_of 0x2F%N)))).
      auto with safe.
  - apply eats_choice. foralls; auto; eat1.
Qed.

Lemma eats_repeated0 {A} (p : parser A) : eats 1 p -> eats 0 (p_repeated p).
Proof. intros. apply eats_repeat; simpl; auto. Qed.

Lemma eats_ml_rec fuel : eats 1 (@ml_comment_rec Sp E fuel).
Proof.
  induction fuel as [|fuel IH]; cbn [ml_comment_rec].
  - intros ts a rest alt. discriminate.
  - unfold ml_body. apply (eats_delimited 1 0 0); [eat1 | | eat1].
    apply eats_ignored, eats_repeated0, eats_choice. foralls; auto; eat1.
Qed.

Lemma safe_ml_rec : forall n, safe n (@ml_comment_rec Sp E (S n)).
Proof.
  intros n. induction n as [n IH] using (well_founded_induction lt_wf). cbn [ml_comment_rec].
  assert (Eb : eats 1 (p_choice
        [ ml_comment_rec n;
          p_ignored (p_none_of 0x2A%N);
          p_ignored (p_then_ignore (p_just 0x2A%N) (p_rewind (p_none_of 0x2F%N)))
        ])).
  { apply eats_choice. foralls; try eat1. apply eats_ml_rec. }
  unfold ml_body. eapply safe_delimited with (k := 2) (j := 0).
  - apply S_begin_comment.
  - apply eats_begin_comment.
  - intros L. apply safe_ignored, safe_repeat; auto.
    apply ml_choice_safe; [|apply eats_ml_rec].
    destruct n as [|n]; [lia|].
    apply safe_le with n; [|lia]. apply IH. lia.
  - now apply eats_ignored, eats_repeated0.
  - intros _. apply S_just_str.
Qed.

Lemma S_ml_comment : Safe ml_comment.
Proof.
  intros n ts L. unfold ml_comment.
  apply (safe_map_err_with_span (len ts)); auto.
  - intros e s M. unfold ml_comment_err.
    destruct (_ && _) eqn:Q; eauto.
    destruct e; simpl in *; try discriminate. eexists; split; reflexivity || exact I.
  - apply safe_ml_rec.
Qed.
Lemma eats_ml_comment : eats 1 ml_comment.
Proof.
  intros ts a rest alt Q. unfold ml_comment in Q.
  eapply (eats_map_err_with_span 1); eauto. apply eats_ml_rec.
Qed.
Hint Resolve S_ml_comment eats_ml_comment : safe.

Lemma S_ws : Safe ws.
Proof. unfold ws. auto 10 with safe. Qed.
Lemma eats_ws : eats 1 ws.
Proof. unfold ws. eat1. Qed.
Hint Resolve S_ws eats_ws : safe.

Lemma S_comment : Safe comment.
Proof. unfold comment. auto 10 with safe. Qed.
Lemma eats_comment : eats 1 comment.
Proof. unfold comment. eat1. Qed.
Hint Resolve S_comment eats_comment : safe.

Lemma S_raw_string : Safe raw_string.
Proof.
  unfold raw_string. apply S_map, S_bind.
  - apply S_then_ignore; auto with safe. apply S_ignore_then; auto with safe.
    apply S_map, S_repeated; auto with safe. eat1.
  - intros n m. apply safe_map_err_with_span.
    + intros e s M. unfold raw_string_err. destruct (is_eoi_error e) eqn:Q; eauto.
      destruct e; simpl in *; try discriminate.
      eexists; split; reflexivity || exact I.
    + apply S_take_until, S_ignore_then; auto with safe.
      apply S_ignored, S_exactly; auto with safe. eat1.
Qed.
Lemma eats_raw_string : eats 1 raw_string.
Proof.
  unfold raw_string. apply eats_map. apply (eats_bind 1 0).
  - apply (eats_then_ignore 1 0); [|eat1].
    apply (eats_ignore_then 1 0); [eat1|].
    apply eats_map, eats_repeated0. eat1.
  - intros n. apply eats_map_err_with_span, eats_take_until, eats0.
    apply S_ignore_then; auto with safe.
    apply S_ignored, S_exactly; auto with safe. eat1.
Qed.
Hint Resolve S_raw_string eats_raw_string : safe.

Lemma skip_to_none f (ts : toks) : skip_to f ts = None ->
  forall c s rest, suffix ((c, s) :: rest) ts -> f c = false.
Proof.
  induction ts as [|[c s] ts IH]; simpl; intros H c' s' rest [pre Q].
  - destruct pre; discriminate.
  - destruct (f c) eqn:Fc; [discriminate|].
    destruct pre as [|x pre]; simpl in Q; inversion Q; subst; auto.
    apply (IH H c' s' rest). now exists pre.
Qed.

Lemma delimited_ends {A B} (p : parser A) (o : parser B) x ts a rest alt :
  Safe p -> Safe o ->
  r_out (p_delimited p o (p_just x) ts) = Ok a rest alt ->
  exists s, suffix ((x, s) :: rest) ts.
Proof.
  intros Hp Ho. unfold p_delimited, p_then_ignore, p_map, p_then, p_bind.
  pose proof (S_ignore_then _ _ Ho Hp _ ts (le_n _)) as [_ O].
  destruct (r_out (p_ignore_then o p ts)) as [y r al|e]; simpl in *;
    [|discriminate].
  destruct O as [S1 _]. destruct r as [|[c s] r].
  - unfold p_just; simpl. destruct (lmax_opt _ _). discriminate.
  - unfold p_just. destruct (N.eqb c x) eqn:Q.
    + simpl. destruct (merge_alts al None). simpl. intros X; inversion X; subst.
      apply N.eqb_eq in Q. subst. eauto.
    + simpl. destruct (lmax_opt _ _). discriminate.
Qed.

Lemma S_esc_hex : Safe (p_filter_map esc_hex).
Proof.
  intros n. apply safe_filter_map. intros s c e. unfold esc_hex.
  destruct (is_digit 16 c); [discriminate|]. now intros [= <-].
Qed.

Lemma S_esc_char : Safe esc_char.
Proof.
  unfold esc_char. apply S_or.
  - intros n. apply safe_filter_map. intros s c e. unfold esc_simple.
    repeat match goal with |- context [if ?b then _ else _] => destruct b end;
      intros [= <-]; exact I.
  - apply S_ignore_then; auto with safe.
    assert (Sh : Safe (p_repeat 1 (Some 6) (p_filter_map esc_hex))).
    { apply S_repeat; [apply S_esc_hex|eat1]. }
    intros n. apply safe_recover_skip_until. intros ts L.
    assert (D : Safe (p_delimited (p_repeat 1 (Some 6) (p_filter_map esc_hex))
                        (p_just 0x7B%N) (p_just 0x7D%N))).
    { apply S_delimited; auto with safe. }
    pose proof (D n ts L) as [C O]. unfold p_try_map. cbn [r_crash r_out].
    split; [exact C|].
    destruct (r_out (p_delimited _ _ _ ts)) as [a rest alt|e] eqn:Q; simpl in O.
    + unfold esc_code. destruct (is_scalar (hex_value a)); auto.
      intros K. exfalso.
      apply delimited_ends in Q; auto with safe. destruct Q as [s Q].
      pose proof (skip_to_none _ _ K _ _ _ Q) as F. discriminate.
    + auto.
Qed.
Lemma eats_esc_char : eats 0 esc_char.
Proof. apply eats0, S_esc_char. Qed.
Hint Resolve S_esc_char eats_esc_char : safe.

Lemma S_escaped_string : Safe escaped_string.
Proof.
  unfold escaped_string. apply S_ignore_then; auto with safe.
  intros n. apply safe_map_err_with_span.
  - intros e s M. unfold string_err. destruct (is_eoi_error e) eqn:Q; eauto.
    destruct e; simpl in *; try discriminate.
    eexists; split; reflexivity || exact I.
  - apply S_then_ignore; auto with safe.
    apply S_repeated; auto with safe. eat1.
Qed.
Lemma eats_escaped_string : eats 1 escaped_string.
Proof.
  unfold escaped_string. apply (eats_ignore_then 1 0); [eat1|].
  apply eats_map_err_with_span, eats0, S_then_ignore; auto with safe.
  apply S_repeated; auto with safe. eat1.
Qed.
Hint Resolve S_escaped_string eats_escaped_string : safe.

Lemma S_string : Safe string_.
Proof. unfold string_. auto with safe. Qed.
Lemma eats_string : eats 1 string_.
Proof. unfold string_. eat1. Qed.
Hint Resolve S_string eats_string : safe.

Lemma S_plus_minus : Safe plus_minus.
Proof. unfold plus_minus. auto with safe. Qed.
Lemma eats_plus_minus : eats 1 plus_minus.
Proof. unfold plus_minus. eat1. Qed.
Hint Resolve S_plus_minus eats_plus_minus : safe.

Lemma S_bare_ident : Safe bare_ident.
Proof.
  unfold bare_ident. apply S_try_map.
  - intros a s e. unfold not_keyword, keyword_error.
    repeat match goal with |- context [if ?b then _ else _] => destruct b end;
      intros [= <-]; exact I.
  - apply S_choice; [discriminate|]. foralls; auto 10 with safe.
    apply S_exactly; auto with safe.
Qed.
Lemma eats_bare_ident : eats 1 bare_ident.
Proof.
  unfold bare_ident. apply eats_try_map, eats_choice. foralls; try eat1.
  unfold p_exactly. eat1.
Qed.
Hint Resolve S_bare_ident eats_bare_ident : safe.

Lemma S_digit r : Safe (digit r).
Proof. unfold digit. auto with safe. Qed.
Lemma eats_digit r : eats 1 (digit r).
Proof. unfold digit. eat1. Qed.
Lemma S_digits r : Safe (digits r).
Proof. unfold digits. apply S_repeated; auto with safe. eat1. Qed.
Hint Resolve S_digit eats_digit S_digits : safe.

Lemma S_opt_sign : Safe opt_sign.
Proof. unfold opt_sign. auto with safe. Qed.
Hint Resolve S_opt_sign : safe.

Lemma S_fraction : Safe fraction.
Proof. unfold fraction. auto 10 with safe. Qed.
Lemma S_exponent : Safe exponent.
Proof. unfold exponent. auto 10 with safe. Qed.
Hint Resolve S_fraction S_exponent : safe.

Lemma S_decimal_number : Safe decimal_number.
Proof. unfold decimal_number. auto 20 with safe. Qed.
Lemma eats_decimal_number : eats 1 decimal_number.
Proof. unfold decimal_number. eat1. Qed.
Hint Resolve S_decimal_number eats_decimal_number : safe.

Lemma S_radix_digits c n r : Safe (radix_digits c n r).
Proof. unfold radix_digits. auto 10 with safe. Qed.
Hint Resolve S_radix_digits : safe.

Lemma S_radix_number : Safe radix_number.
Proof.
  unfold radix_number. apply S_map, S_then; auto with safe.
  apply S_choice; [discriminate|]. foralls; auto with safe.
Qed.
Lemma eats_radix_number : eats 1 radix_number.
Proof.
  unfold radix_number. apply eats_map, (eats_then 1 0); [eat1|].
  apply eats0, S_choice; [discriminate|]. foralls; auto with safe.
Qed.
Hint Resolve S_radix_number eats_radix_number : safe.

Lemma S_number : Safe number.
Proof. unfold number. auto with safe. Qed.
Lemma eats_number : eats 1 number.
Proof. unfold number. eat1. Qed.
Hint Resolve S_number eats_number : safe.

Lemma S_ident : Safe ident.
Proof.
  unfold ident. apply S_try_map.
  - intros [a|a] s e; unfold not_number; [|discriminate]. intros [= <-]. exact I.
  - apply S_choice; [discriminate|]. foralls; auto with safe.
Qed.
Lemma eats_ident : eats 1 ident.
Proof. unfold ident. eat1. Qed.
Hint Resolve S_ident eats_ident : safe.

Lemma S_keyword1 s l : Safe (keyword1 s l).
Proof. unfold keyword1. auto with safe. Qed.
Hint Resolve S_keyword1 : safe.
Lemma S_keyword : Safe keyword.
Proof.
  unfold keyword. apply S_choice; [discriminate|]. foralls; auto with safe.
Qed.
Lemma eats_keyword : eats 1 keyword.
Proof. unfold keyword, keyword1. eat1. Qed.
Hint Resolve S_keyword eats_keyword : safe.

Lemma S_literal : Safe literal_.
Proof.
  unfold literal_. apply S_choice; [discriminate|].
  foralls; auto with safe.
Qed.
Lemma eats_literal : eats 1 literal_.
Proof. unfold literal_. eat1. Qed.
Hint Resolve S_literal eats_literal : safe.

Lemma S_type_name : Safe type_name.
Proof. unfold type_name. auto with safe. Qed.
Lemma eats_type_name : eats 1 type_name.
Proof. unfold type_name. eat1. Qed.
Hint Resolve S_type_name eats_type_name : safe.

Lemma S_esc_line : Safe esc_line.
Proof. unfold esc_line. auto 10 with safe. Qed.
Lemma eats_esc_line : eats 1 esc_line.
Proof. unfold esc_line. apply (eats_ignore_then 1 0); eat1. Qed.
Hint Resolve S_esc_line eats_esc_line : safe.

Lemma S_node_space : Safe node_space.
Proof. unfold node_space. auto with safe. Qed.
Lemma eats_node_space : eats 1 node_space.
Proof. unfold node_space. eat1. Qed.
Hint Resolve S_node_space eats_node_space : safe.

Lemma S_node_terminator : Safe node_terminator.
Proof.
  unfold node_terminator. apply S_choice; [discriminate|].
  foralls; auto with safe.
Qed.
Hint Resolve S_node_terminator : safe.

Lemma S_type_name_value : Safe type_name_value.
Proof. unfold type_name_value. auto with safe. Qed.
Lemma eats_type_name_value : eats 1 type_name_value.
Proof. unfold type_name_value. eat1. Qed.
Hint Resolve S_type_name_value eats_type_name_value : safe.

Lemma S_value : Safe value_.
Proof. unfold value_. auto with safe. Qed.
Lemma eats_value : eats 1 value_.
Proof. unfold value_. eat1. Qed.
Hint Resolve S_value eats_value : safe.

Lemma S_opt_value : Safe opt_value.
Proof. unfold opt_value. auto with safe. Qed.
Hint Resolve S_opt_value : safe.

Lemma S_line_space : Safe line_space.
Proof. unfold line_space. auto with safe. Qed.
Lemma eats_line_space : eats 1 line_space.
Proof. unfold line_space. eat1. Qed.
Hint Resolve S_line_space eats_line_space : safe.

Lemma S_slashdash : Safe slashdash.
Proof. unfold slashdash. auto with safe. Qed.
Hint Resolve S_slashdash : safe.

Lemma eats_prop_or_arg_inner : eats 1 prop_or_arg_inner.
Proof. unfold prop_or_arg_inner. eat1. Qed.
Hint Resolve eats_prop_or_arg_inner : safe.

End GrammarSafe2.

#[export] Hint Resolve S_then S_bind S_ignore_then S_then_ignore S_delimited S_map S_ignored S_map_with_span S_map_err S_or S_choice S_or_not S_rewind S_repeat S_repeated S_exactly S_take_until S_spanned S_validate S_just S_filter S_none_of S_just_str S_end mergeable_kind mergeable_token mergeable_no S_begin_comment eats1_begin_comment S_newline eats_newline S_ws_char eats_ws_char S_id_char eats_id_char S_id_sans_dig eats_id_sans_dig S_id_sans_sign_dig eats_id_sans_sign_dig S_ml_comment eats_ml_comment S_ws eats_ws S_comment eats_comment S_raw_string eats_raw_string S_esc_char eats_esc_char S_escaped_string eats_escaped_string S_string eats_string S_plus_minus eats_plus_minus S_bare_ident eats_bare_ident S_digit eats_digit S_digits S_opt_sign S_fraction S_exponent S_decimal_number eats_decimal_number S_radix_digits S_radix_number eats_radix_number S_number eats_number S_ident eats_ident S_keyword1 S_keyword eats_keyword S_literal eats_literal S_type_name eats_type_name S_esc_line eats_esc_line S_node_space eats_node_space S_node_terminator S_type_name_value eats_type_name_value S_value eats_value S_opt_value S_line_space eats_line_space S_slashdash eats_prop_or_arg_inner : safe.
