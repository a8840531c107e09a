(** The parsers of src/grammar.rs with any two kinds of spans. *)

From Coq Require Import NArith PeanoNat List Bool String Lia.
From Verif Require Import Chars Ast Errors Chumsky Spans Grammar Param Coarse.
Import ListNotations.

Section CoarseGrammar.
Context {S1 S2 : Type} {E1 : env S1} {E2 : env S2}.
Notation R := (fun (_ : S1) (_ : S2) => True).
Notation rel_p := (@rel_p S1 S2 _ _).
Notation rel_perr := (@rel_perr S1 S2).

Lemma rel_weaken {A B} (RA RB : A -> B -> Prop) p q : (forall a b, RA a b -> RB a b) ->
  rel_p RA p q -> rel_p RB p q.
Proof.
  intros W P ts ts' T. specialize (P ts ts' T). destruct P as [errs errs' o o' c c' P1 P2].
  constructor; [assumption|]. destruct P2; constructor; auto.
Qed.

Lemma Forall2_eq {A} (l l' : list A) : Forall2 eq l l' -> l = l'.
Proof. induction 1; congruence. Qed.

Lemma rprod_eq {A B} (p q : A * B) : rprod eq eq p q -> p = q.
Proof. destruct p, q. intros [H K]. cbn in *. congruence. Qed.

Lemma ropt_eq {A} (p q : option A) : ropt eq p q -> p = q.
Proof. intros H. destruct H; congruence. Qed.

Lemma ropt_self {A} (p : option A) : ropt eq p p.
Proof. destruct p; constructor. reflexivity. Qed.

Lemma rel_map_eq {A B} (f : A -> B) p q : rel_p eq p q -> rel_p eq (p_map f p) (p_map f q).
Proof. apply rel_map. intros a b ->. reflexivity. Qed.

Lemma rel_bind_eq {A B} (p : parser S1 A) (p' : parser S2 A) (q : A -> parser S1 B) q' : rel_p eq p p' -> (forall a, rel_p eq (q a) (q' a)) ->
  rel_p eq (p_bind p q) (p_bind p' q').
Proof.
  intros P Q. eapply rel_weaken; [|apply rel_bind; [exact P|]].
  - apply rprod_eq.
  - intros a b <-. apply Q.
Qed.

Lemma rel_then_eq {A B} (p : parser S1 A) (p' : parser S2 A) (q : parser S1 B) q' : rel_p eq p p' -> rel_p eq q q' ->
  rel_p eq (p_then p q) (p_then p' q').
Proof. intros P Q. apply rel_bind_eq; auto. Qed.

Lemma rel_repeat_eq {A} n m (p : parser S1 A) (p' : parser S2 A) : rel_p eq p p' ->
  rel_p eq (p_repeat n m p) (p_repeat n m p').
Proof. intros P. eapply rel_weaken; [apply Forall2_eq|]. apply rel_repeat. exact P. Qed.

Lemma rel_or_not_eq {A} (p : parser S1 A) (p' : parser S2 A) : rel_p eq p p' -> rel_p eq (p_or_not p) (p_or_not p').
Proof. intros P. eapply rel_weaken; [apply ropt_eq|]. apply rel_or_not. exact P. Qed.

Lemma rel_take_until_eq {A} (p : parser S1 A) (p' : parser S2 A) : rel_p eq p p' ->
  rel_p eq (p_take_until p) (p_take_until p').
Proof. intros P. eapply rel_weaken; [apply rprod_eq|]. apply rel_take_until; assumption. Qed.

Lemma rel_try_map_eq {A B} f g (p : parser S1 A) (p' : parser S2 A) :
  (forall a s s', R s s' -> rsum eq rel_perr (f a s) (g a s')) -> rel_p eq p p' ->
  rel_p (@eq B) (p_try_map f p) (p_try_map g p').
Proof. intros F. eapply rel_try_map. intros a b s s' <-. apply F. Qed.

Lemma with_no_expected_rel e e' : rel_perr e e' ->
  rel_perr (with_no_expected e) (with_no_expected e').
Proof. intros _. exact I. Qed.

Lemma with_expected_kind_rel k e e' : rel_perr e e' ->
  rel_perr (with_expected_kind k e) (with_expected_kind k e').
Proof. intros _. exact I. Qed.

Lemma with_expected_token_rel k e e' : rel_perr e e' ->
  rel_perr (with_expected_token k e) (with_expected_token k e').
Proof. intros _. exact I. Qed.

Ltac rerr := first [assumption | exact I].

Ltac rel1 :=
  first
  [ assumption
  | solve [auto with relp nocore]
  | eapply rel_filter | eapply rel_none_of | eapply rel_just
  | eapply rel_just_str | eapply rel_end
  | apply rel_map_eq | eapply rel_ignored | eapply rel_ignore_then | eapply rel_then_ignore
  | eapply rel_delimited | apply rel_then_eq
  | apply rel_or | apply rel_choice; repeat first [apply Forall2_cons | apply Forall2_nil]
  | apply rel_or_not_eq | apply rel_repeat_eq | eapply rel_take_until_eq
  | eapply rel_rewind
  | apply rel_map_err;
      [first [apply with_no_expected_rel | apply with_expected_kind_rel
             | apply with_expected_token_rel]|] ].
Ltac rel := repeat rel1.

Create HintDb relp.

Lemma rel_begin_comment c : rel_p eq (begin_comment c) (begin_comment c).
Proof. unfold begin_comment. rel. Qed.
Hint Resolve rel_begin_comment : relp.

Lemma rel_newline : rel_p eq newline newline.
Proof. unfold newline. rel. Qed.
Hint Resolve rel_newline : relp.

Lemma rel_ml_body p p' : rel_p eq p p' -> rel_p eq (ml_body p) (ml_body p').
Proof.
  intros P. unfold ml_body, p_repeated. rel.
Qed.

Lemma rel_ml_comment : rel_p eq ml_comment ml_comment.
Proof.
  intros ts ts' T. unfold ml_comment. rewrite (rel_toks_length _ _ T).
  apply (rel_map_err_with_span eq); [|exact T].
  generalize (S (List.length ts')). clear ts ts' T. intros n. induction n as [|n IH]; cbn [ml_comment_rec].
  - intros ts ts' T. constructor; constructor. apply unexpected_rel; exact T.
  - apply rel_ml_body. exact IH.
Qed.
Hint Resolve rel_ml_comment : relp.

Lemma rel_ws : rel_p eq ws ws.
Proof. unfold ws, ws_char. rel. Qed.
Hint Resolve rel_ws : relp.

Lemma rel_comment : rel_p eq comment comment.
Proof. unfold comment. rel. Qed.
Hint Resolve rel_comment : relp.

Lemma rel_raw_string : rel_p eq raw_string raw_string.
Proof.
  unfold raw_string, p_repeated, p_exactly. apply rel_map_eq. apply rel_bind_eq; [rel|].
  intros n. apply rel_map_err_with_span. rel.
Qed.
Hint Resolve rel_raw_string : relp.

Lemma rel_esc_char : rel_p eq esc_char esc_char.
Proof.
  unfold esc_char. apply rel_or.
  - eapply rel_filter_map. intros s s' c. unfold esc_simple.
    destruct ((c =? 0x22) || (c =? 0x5C) || (c =? 0x2F))%N; [constructor; reflexivity|].
    destruct (c =? 0x62)%N; [constructor; reflexivity|].
    destruct (c =? 0x66)%N; [constructor; reflexivity|].
    destruct (c =? 0x6E)%N; [constructor; reflexivity|].
    destruct (c =? 0x72)%N; [constructor; reflexivity|].
    destruct (c =? 0x74)%N; [constructor; reflexivity|].
    constructor. exact I.
  - rel. apply rel_recover; [reflexivity|]. apply rel_try_map_eq.
    + intros a s s' H. unfold esc_code. destruct (is_scalar _); constructor; [reflexivity|].
      exact I.
    + eapply rel_delimited; [|rel..]. apply rel_repeat_eq. eapply rel_filter_map.
      intros s s' c. unfold esc_hex. destruct (is_digit 16 c); constructor; [reflexivity|].
      exact I.
Qed.
Hint Resolve rel_esc_char : relp.

Lemma rel_escaped_string : rel_p eq escaped_string escaped_string.
Proof.
  unfold escaped_string, p_repeated. eapply rel_ignore_then; [rel|].
  apply rel_map_err_with_span. rel.
Qed.
Hint Resolve rel_escaped_string : relp.

Lemma rel_string : rel_p eq string_ string_.
Proof. unfold string_. rel. Qed.
Hint Resolve rel_string : relp.

Lemma rel_id_char : rel_p eq id_char id_char.
Proof. unfold id_char. rel. Qed.
Lemma rel_id_sans_dig : rel_p eq id_sans_dig id_sans_dig.
Proof. unfold id_sans_dig. rel. Qed.
Lemma rel_id_sans_sign_dig : rel_p eq id_sans_sign_dig id_sans_sign_dig.
Proof. unfold id_sans_sign_dig. rel. Qed.
Hint Resolve rel_id_char rel_id_sans_dig rel_id_sans_sign_dig : relp.

Lemma rel_bare_ident : rel_p eq bare_ident bare_ident.
Proof.
  unfold bare_ident, plus_minus, p_repeated, p_exactly. apply rel_try_map_eq; [|rel].
  intros a s s' H. unfold not_keyword.
  repeat match goal with |- context [if ?b then _ else _] => destruct b end;
    constructor; try reflexivity; exact I.
Qed.
Hint Resolve rel_bare_ident : relp.

Lemma rel_number : rel_p eq number number.
Proof.
  unfold number, radix_number, decimal_number, radix_digits, fraction, exponent, opt_sign, digits,
    digit, p_repeated.
  rel.
Qed.
Hint Resolve rel_number : relp.

Lemma rel_ident : rel_p eq ident ident.
Proof.
  unfold ident. apply rel_try_map_eq; [|rel].
  intros [a|a] s s' H; cbn; constructor; [exact I|reflexivity].
Qed.
Hint Resolve rel_ident : relp.

Lemma rel_literal : rel_p eq literal_ literal_.
Proof. unfold literal_, keyword, keyword1. rel. Qed.
Hint Resolve rel_literal : relp.

Lemma rel_type_name : rel_p eq type_name type_name.
Proof. unfold type_name. rel. Qed.
Hint Resolve rel_type_name : relp.

Lemma rel_node_space : rel_p eq node_space node_space.
Proof. unfold node_space, esc_line, p_repeated. rel. Qed.
Hint Resolve rel_node_space : relp.

Lemma rel_line_space : rel_p eq line_space line_space.
Proof. unfold line_space. rel. Qed.
Hint Resolve rel_line_space : relp.

Lemma rel_node_terminator : rel_p eq node_terminator node_terminator.
Proof. unfold node_terminator. rel. Qed.
Hint Resolve rel_node_terminator : relp.

Lemma rel_slashdash : rel_p eq slashdash slashdash.
Proof. unfold slashdash, p_repeated. rel. Qed.
Hint Resolve rel_slashdash : relp.

(** ** Parsers of values with spans *)

Definition rspanned {A B} (RA : A -> B -> Prop) (a : spanned A S1) (b : spanned B S2) : Prop :=
  R (s_span a) (s_span b) /\ RA (s_value a) (s_value b).

Definition rel_value (v : value S1) (w : value S2) : Prop :=
  ropt (rspanned eq) (v_type_name v) (v_type_name w)
  /\ rspanned eq (v_literal v) (v_literal w).

Inductive rel_node : node S1 -> node S2 -> Prop :=
| RNode ty ty' nm nm' args args' props props' ch ch' :
    ropt (rspanned eq) ty ty' -> rspanned eq nm nm' -> Forall2 rel_value args args' ->
    Forall2 (rprod (rspanned eq) rel_value) props props' ->
    ropt (rspanned (Forall2 (rspanned rel_node))) ch ch' ->
    rel_node (Node ty nm args props ch) (Node ty' nm' args' props' ch').

Definition rel_doc : document S1 -> document S2 -> Prop := Forall2 (rspanned rel_node).

Inductive rel_item : @prop_or_arg_t S1 -> @prop_or_arg_t S2 -> Prop :=
| RI_prop n n' v v' : rspanned eq n n' -> rel_value v v' -> rel_item (Prop_ n v) (Prop_ n' v')
| RI_arg v v' : rel_value v v' -> rel_item (Arg_ v) (Arg_ v')
| RI_ignore : rel_item Ignore_ Ignore_.

Lemma rel_spanned {A B} (RA : A -> B -> Prop) p q : rel_p RA p q ->
  rel_p (rspanned RA) (p_spanned p) (p_spanned q).
Proof.
  intros P. eapply rel_map_with_span; [ |exact P]. intros a b s s' H K. split; assumption.
Qed.

Lemma rel_type_name_value : rel_p rel_value type_name_value type_name_value.
Proof.
  unfold type_name_value.
  eapply rel_map; [|apply rel_then; apply rel_spanned; [exact rel_type_name|exact rel_literal]].
  intros a b [H K]. split; cbn; [constructor|]; assumption.
Qed.

Lemma rel_value_p : rel_p rel_value value_ value_.
Proof.
  unfold value_. apply rel_or; [exact rel_type_name_value|].
  eapply rel_map; [|apply rel_spanned; exact rel_literal].
  intros a b H. split; cbn; [constructor|]; assumption.
Qed.

Lemma rel_opt_value : rel_p (ropt rel_value) opt_value opt_value.
Proof. unfold opt_value. apply rel_or_not. eapply rel_ignore_then; [rel|exact rel_value_p]. Qed.

Lemma rel_prop_or_arg_inner : rel_p rel_item prop_or_arg_inner prop_or_arg_inner.
Proof.
  unfold prop_or_arg_inner. apply rel_choice. apply Forall2_cons; [|apply Forall2_cons; [|apply Forall2_cons; [|apply Forall2_nil]]].
  - eapply rel_try_map; [ |apply rel_then; [apply rel_spanned; exact rel_literal|exact rel_opt_value]].
    intros [[ns lit] v] [[ns' lit'] v'] s s' [[H1 H2] H3] _. cbn in H1, H2, H3. subst lit'.
    unfold literal_item. cbn [s_value s_span].
    destruct H3 as [|v v' H3]; destruct lit; constructor;
      solve [constructor; try (split; cbn; [assumption|reflexivity]); rerr
            |constructor; split; cbn; [constructor|split; [assumption|reflexivity]]].
  - eapply rel_map with (RA := rprod (rspanned eq) (ropt rel_value)).
    + intros [n v] [n' v'] [H1 H2]. cbn in H1, H2. unfold ident_item. cbn [fst snd].
      destruct H2 as [|v v' H2].
      * constructor. destruct n as [ns n], n' as [ns' n'], H1 as [H1 H3]. cbn in H1, H3. subst n'.
        split; cbn; [constructor|]. split; [exact H1|reflexivity].
      * constructor; assumption.
    + eapply rel_validate; [ |apply rel_then; [apply rel_spanned; exact rel_bare_ident|exact rel_opt_value]].
      intros a b s s' H K. unfold ident_item_check. split; [exact H|]. destruct H as [_ H].
      cbn [snd]. destruct H; constructor. exact I.
  - eapply rel_map; [|exact rel_type_name_value]. intros a b H. constructor. exact H.
Qed.

Lemma rel_prop_or_arg : rel_p rel_item prop_or_arg prop_or_arg.
Proof.
  unfold prop_or_arg, p_repeated. apply rel_or; [|exact rel_prop_or_arg_inner].
  eapply rel_map; [|eapply rel_ignore_then; [rel|exact rel_prop_or_arg_inner]].
  intros _ _ _. constructor.
Qed.

Lemma rel_node_items : rel_p (Forall2 rel_item) node_items node_items.
Proof.
  unfold node_items. apply rel_repeated. eapply rel_ignore_then; [rel|exact rel_prop_or_arg].
Qed.

Lemma rel_braced_nodes p p' : rel_p rel_doc p p' -> rel_p rel_doc (braced_nodes p) (braced_nodes p').
Proof.
  intros P. unfold braced_nodes. eapply rel_ignore_then; [rel|].
  apply rel_map_err_with_span.
  eapply rel_then_ignore; [exact P|rel].
Qed.

Lemma rel_opt_children p p' : rel_p rel_doc p p' ->
  rel_p (ropt (rprod eq (rspanned rel_doc))) (opt_children p) (opt_children p').
Proof.
  intros P. unfold opt_children, p_repeated. apply rel_or_not. apply rel_then; [rel|].
  apply rel_spanned. apply rel_braced_nodes. exact P.
Qed.

Lemma props_insert_rel k k' v v' m m' : rspanned eq k k' -> rel_value v v' ->
  Forall2 (rprod (rspanned eq) rel_value) m m' ->
  Forall2 (rprod (rspanned eq) rel_value) (props_insert k v m) (props_insert k' v' m').
Proof.
  intros [K1 K2] V M. induction M as [|[j w] [j' w'] m m' [[H1 H2] H3] M IH]; cbn [props_insert].
  - constructor; [split; [split|]; assumption|constructor].
  - cbn in H1, H2, H3. rewrite K2, H2. destruct (text_compare _ _).
    + constructor; [split; [split|]; assumption|assumption].
    + constructor; [split; [split|]; assumption|].
      constructor; [split; [split|]; assumption|assumption].
    + constructor; [split; [split|]; assumption|]. exact IH.
Qed.

Lemma add_items_rel l l' : Forall2 rel_item l l' -> forall acc acc',
  rprod (Forall2 rel_value) (Forall2 (rprod (rspanned eq) rel_value)) acc acc' ->
  rprod (Forall2 rel_value) (Forall2 (rprod (rspanned eq) rel_value))
    (fold_left add_item l acc) (fold_left add_item l' acc').
Proof.
  induction 1 as [|i i' l l' I _ IH]; intros acc acc' H; cbn [fold_left]; [exact H|].
  apply IH. destruct H as [H1 H2]. destruct I; cbn [add_item].
  - split; cbn; [assumption|]. apply props_insert_rel; assumption.
  - split; cbn; [|assumption]. apply Forall2_app; [assumption|]. constructor; [assumption|constructor].
  - split; assumption.
Qed.

Lemma rel_node_p p p' : rel_p rel_doc p p' -> rel_p rel_node (node_ p) (node_ p').
Proof.
  intros P. unfold node_, p_repeated.
  eapply rel_map; [|eapply rel_then_ignore;
    [apply rel_then;
       [apply rel_then; [apply rel_then;
          [apply rel_or_not, rel_spanned, rel_type_name|apply rel_spanned, rel_ident]
          |exact rel_node_items]
       |apply rel_opt_children; exact P]
    |rel]].
  intros [[[ty nm] items] ch] [[[ty' nm'] items'] ch'] [[[H1 H2] H3] H4]. cbn in H1, H2, H3, H4.
  unfold make_node.
  pose proof (add_items_rel _ _ H3 ([], []) ([], []) (conj (Forall2_nil _) (Forall2_nil _))) as A.
  destruct (fold_left add_item items ([], [])) as [args props].
  destruct (fold_left add_item items' ([], [])) as [args' props'].
  destruct A as [A1 A2]. cbn in A1, A2. constructor; try assumption.
  destruct H4 as [|[o c] [o' c'] [H4 H5]]; [constructor|]. cbn in H4, H5. subst o'.
  destruct o; constructor. exact H5.
Qed.

Lemma rel_nodes_body p p' : rel_p rel_doc p p' -> rel_p rel_doc (nodes_body p) (nodes_body p').
Proof.
  intros P. unfold nodes_body, p_repeated.
  eapply rel_map; [|eapply rel_separated;
    [apply rel_then; [exact rel_slashdash|apply rel_spanned, rel_node_p; exact P]|rel]].
  intros l l' H. induction H as [|[o n] [o' n'] l l' [H1 H2] H IH]; cbn [flat_map]; [constructor|].
  cbn in H1, H2. subst o'. apply Forall2_app; [|exact IH].
  unfold keep_node. cbn [fst snd]. destruct o; [constructor|]. constructor; [exact H2|constructor].
Qed.

Lemma rel_document : rel_p rel_doc document_ document_.
Proof.
  unfold document_. eapply rel_then_ignore; [|rel].
  assert (forall n, rel_p rel_doc (nodes_rec n) (nodes_rec n)) as N.
  { induction n as [|n IH]; cbn [nodes_rec].
    - intros ts ts' T. constructor; constructor. apply unexpected_rel; exact T.
    - apply rel_nodes_body. exact IH. }
  intros ts ts' T. unfold nodes. rewrite (rel_toks_length _ _ T). apply N. exact T.
Qed.
End CoarseGrammar.
