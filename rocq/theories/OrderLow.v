(** No error of a parser of src/grammar.rs begins before the parser; and the
    errors of the simple ones are shown where they happen. *)

From Coq Require Import NArith PeanoNat List Bool String Lia.
From Verif Require Import Chars Ast Errors Chumsky Spans Grammar Safe GrammarSafe SpanProps ErrSpec ErrAt OrderSpec OrderCalc.
Import ListNotations.
Local Open Scope list_scope.

Section OrderLow.
Variable t : text.

#[local] Hint Extern 0 (env span) => exact (ErrAt.E t) : typeclass_instances.

Notation parser := (Chumsky.parser span).
Notation located := (Chumsky.located span).
Notation toks := (Chumsky.toks span).
Notation pos_rem := (OrderCalc.pos_rem t).
Notation pos := (OrderCalc.pos t).
Notation wt := (OrderCalc.wt t).
Notation from := (OrderCalc.from t).
Notation okl := (OrderCalc.okl t).
Notation place := (OrderCalc.place t).

Lemma spans_kind k (e : perror span) : perror_spans (with_expected_kind k e) = perror_spans e.
Proof. destruct e; reflexivity. Qed.

Lemma spans_token k (e : perror span) : perror_spans (with_expected_token k e) = perror_spans e.
Proof. destruct e; reflexivity. Qed.

Lemma spans_no (e : perror span) : perror_spans (with_no_expected e) = perror_spans e.
Proof. destruct e; reflexivity. Qed.

Create HintDb ord discriminated.
#[local] Hint Constants Opaque : ord.

Ltac foralls := repeat first [apply Forall_nil | apply Forall_cons].
Ltac ok1 :=
  first
  [ assumption
  | solve [auto with ord nocore]
  | lazymatch goal with
    | |- OrderCalc.okl _ _ ?p =>
      lazymatch p with
      | p_filter _ => apply l_filter
      | p_none_of _ => apply l_none_of
      | p_just _ => apply l_just
      | p_just_str _ => apply l_just_str
      | p_end => apply l_end
      | p_map _ _ => apply l_map
      | p_ignored _ => apply l_ignored
      | p_ignore_then _ _ => apply l_ignore_then
      | p_then_ignore _ _ => apply l_then_ignore
      | p_delimited _ _ _ => apply l_delimited
      | p_then _ _ => apply l_then
      | p_or _ _ => apply l_or
      | p_choice _ => apply l_choice; [|foralls]
      | p_or_not _ => apply l_or_not
      | p_repeat _ _ _ => apply l_repeat
      | p_repeated _ => apply l_repeated
      | p_exactly _ _ => apply l_repeat
      | p_take_until _ => apply l_take_until
      | p_rewind _ => apply l_rewind
      | p_spanned _ => apply l_spanned
      | p_separated _ _ => apply l_separated
      | p_recover_skip_until _ _ _ => apply l_recover
      | p_map_err with_no_expected _ => apply l_map_err; [|apply spans_no|]
      | p_map_err (with_expected_kind _) _ => apply l_map_err; [|apply spans_kind|]
      | p_map_err (with_expected_token _) _ => apply l_map_err; [|apply spans_token|]
      end
    end ].
Ltac ok := repeat ok1.

(** ** Parsers made of combinators that show an error where it happens *)

Section Both.
Variable P : nat -> located -> Prop.
Hypothesis PP : place P.

Lemma b_begin_comment c : okl P (begin_comment c).
Proof. unfold begin_comment. ok. Qed.
Hint Resolve b_begin_comment : ord.

Lemma b_newline : okl P newline.
Proof. unfold newline. ok. Qed.
Hint Resolve b_newline : ord.

Lemma b_ws_char : okl P ws_char.
Proof. unfold ws_char. ok. Qed.

Lemma b_ml_rec n : okl P (ml_comment_rec n).
Proof.
  induction n as [|n IH]; cbn [ml_comment_rec].
  - intros ts W. split; [|constructor]. apply (P_unexpected t P PP ts [] W).
  - unfold ml_body. ok.
Qed.

Lemma b_comment : okl P comment.
Proof. unfold comment. ok. Qed.
Hint Resolve b_comment : ord.

Lemma b_node_terminator : okl P node_terminator.
Proof. unfold node_terminator. ok. Qed.

Lemma b_keyword : okl P keyword.
Proof. unfold keyword, keyword1. ok. Qed.

Lemma b_number : okl P number.
Proof.
  unfold number, radix_number, decimal_number, radix_digits, fraction, exponent, digits, digit, opt_sign. ok.
Qed.

Lemma b_bare_text : okl P (p_choice
      [ p_map cons2 (p_then plus_minus
          (p_map cons2 (p_then id_sans_dig (p_repeated id_char))));
        p_exactly 1 plus_minus;
        p_map cons2 (p_then id_sans_sign_dig (p_repeated id_char)) ]).
Proof. unfold plus_minus, id_sans_dig, id_sans_sign_dig, id_char. ok. Qed.

Lemma b_raw_open : okl P (p_then_ignore
        (p_ignore_then (p_just 0x72%N)
          (p_map (@List.length char) (p_repeated (p_just 0x23%N))))
        (p_just 0x22%N)).
Proof. ok. Qed.

Lemma b_raw_rest n : okl P (p_take_until
            (p_ignore_then (p_just 0x22%N)
              (p_ignored (p_exactly n (p_just 0x23%N))))).
Proof. ok. Qed.

Lemma b_hex : okl P (p_filter_map esc_hex).
Proof.
  apply l_filter_map; [exact PP|]. intros s c e H. unfold esc_hex in H.
  destruct (is_digit 16 c); [discriminate|]. injection H as <-. reflexivity.
Qed.

Lemma b_simple : okl P (p_filter_map esc_simple).
Proof.
  apply l_filter_map; [exact PP|]. intros s c e H. unfold esc_simple in H.
  repeat match type of H with (if ?b then _ else _) = _ => destruct b; [discriminate|] end.
  injection H as <-. reflexivity.
Qed.

Lemma b_code_digits : okl P (p_delimited (p_repeat 1 (Some 6) (p_filter_map esc_hex)) (p_just 0x7B%N) (p_just 0x7D%N)).
Proof. pose proof b_hex. ok. Qed.

End Both.

Hint Resolve b_begin_comment b_newline b_ws_char b_ml_rec b_comment b_node_terminator b_keyword b_number b_hex b_simple b_code_digits from_place pl_place : ord.

(** ** Errors that begin at or after the start *)

Lemma low_try_map {A B} (f : A -> span -> B + perror span) p :
  (forall ts a rest alt e, wt ts -> r_out (p ts) = Ok a rest alt ->
     f a (span_since ts (List.length rest)) = inr e -> pos ts <= starts e) ->
  okl from p -> okl from (p_try_map f p).
Proof.
  intros F H ts W. destruct (H ts W) as [H1 H2]. unfold p_try_map. cbn [r_out r_errs]. split; [|exact H2].
  destruct (r_out (p ts)) as [a rest alt|e] eqn:O; [|exact H1].
  destruct (f a _) as [b|e] eqn:X; [exact H1|]. destruct H1 as (_ & L & _).
  split; [exact L|]. exact (F ts a rest alt e W O X).
Qed.

Lemma low_try_start {A B} (f : A -> span -> B + perror span) p :
  (forall a s e, f a s = inr e -> starts e = sp_start s) ->
  okl from p -> okl from (p_try_map f p).
Proof.
  intros F. apply low_try_map. intros ts a rest alt e W O X. rewrite (F _ _ _ X), since_start by exact W. lia.
Qed.

Lemma low_validate {A B} (f : A -> span -> B * option (perror span)) p :
  (forall a s e, snd (f a s) = Some e -> starts e = sp_start s) ->
  okl from p -> okl from (p_validate f p).
Proof.
  intros F H ts W. destruct (H ts W) as [H1 H2]. unfold p_validate.
  destruct (r_out (p ts)) as [a rest alt|e] eqn:O; [|split; assumption].
  destruct (f a _) as [b o] eqn:X. cbn [r_out r_errs]. split; [exact H1|]. apply Forall_app. split; [exact H2|].
  destruct o as [e|]; [|constructor]. constructor; [|constructor]. destruct H1 as (_ & L & _).
  split; [exact L|]. cbn [l_err]. rewrite (F a (span_since ts (List.length rest)) e); [|rewrite X; reflexivity].
  rewrite since_start by exact W. unfold OrderCalc.pos. lia.
Qed.

Lemma low_opened {A B} (o : parser A) (k : A -> parser B) f : okl from o -> (forall a, okl from (k a)) ->
  (forall ts a rest alt e s e', wt ts -> wt rest -> r_out (o ts) = Ok a rest alt -> from (List.length rest) e ->
     sp_start s = pos rest -> f a (l_err e) s = Some e' -> pos ts <= starts e') ->
  okl from (p_bind o (fun a => p_map_err_with_span (f a) (k a))).
Proof.
  intros H K F ts W. destruct (H ts W) as [H1 H2]. unfold p_bind. destruct (r_out (o ts)) as [a rest alt|e] eqn:O.
  - destruct H1 as (W1 & L1 & A1). destruct (K a rest W1) as [K1 K2]. unfold p_map_err_with_span.
    pose proof (all_mono t from (from_place t) _ _ _ L1 K2) as K3.
    assert (Forall (from (List.length ts)) (r_errs (o ts) ++ r_errs (k a rest))) as G by (apply Forall_app; auto).
    destruct (r_out (k a rest)) as [b rest2 alt2|e] eqn:O2.
    + rewrite O2. destruct K1 as (W2 & L2 & A2). destruct (merge_alts alt alt2) as [alt' c] eqn:M.
      split; [|exact G]. cbn. split; [exact W2|]. split; [lia|].
      eapply merge_alts_with; [apply from_respects|exact M|exact A1|].
      eapply (opt_mono t from (from_place t)); eassumption.
    + destruct (f a (l_err e) (span_since rest (l_rem e))) as [e'|] eqn:X; cbn [r_out r_errs].
      * destruct (lmax_opt (Located (l_rem e) e') alt) as [e2 c] eqn:M. split; [|exact G]. cbn.
        eapply lmax_opt_with; [apply from_respects|exact M| |exact A1]. split; [destruct K1 as [K1 _]; cbn; lia|].
        exact (F ts a rest alt e _ e' W W1 O K1 (since_start t rest (l_rem e) W1) X).
      * destruct (lmax_opt e alt) as [e2 c] eqn:M. split; [|exact G]. cbn.
        eapply lmax_opt_with; [apply from_respects|exact M| |exact A1]. eapply from_le; eassumption.
  - split; [exact H1|exact H2].
Qed.

Lemma eoi_merge (e : perror span) l oa o ea x f : is_eoi_error e = true ->
  merge e (EUnclosed l oa o ea x f) = Some (EUnclosed l oa o ea x f).
Proof. destruct e; [reflexivity|discriminate..]. Qed.

Lemma pos_far n k : n <= List.length t -> k <= n -> pos_rem n + k <= pos_rem (n - k).
Proof.
  intros L. induction k as [|k IH]; intros K; [rewrite Nat.sub_0_r; lia|].
  pose proof (pos_strict t (n - S k) (n - k)). lia.
Qed.

Lemma rest_pos (ts rest : toks) k : wt ts -> List.length rest + k <= List.length ts -> pos ts + k <= pos rest.
Proof.
  intros W K. pose proof (wt_len t ts W) as L. unfold OrderCalc.pos.
  pose proof (pos_far (List.length ts) k L). pose proof (pos_mono t (List.length rest) (List.length ts - k)). lia.
Qed.

Lemma low_ml_comment : okl from ml_comment.
Proof.
  intros ts W. unfold ml_comment, p_map_err_with_span. set (p := ml_comment_rec _).
  assert (okl from p) as H by (apply b_ml_rec; apply from_place). destruct (H ts W) as [H1 H2].
  destruct (r_out (p ts)) as [a rest alt|e] eqn:O; [rewrite O; split; assumption|].
  destruct (ml_comment_err _ _) as [e'|] eqn:X; cbn [r_out r_errs]; [|split; assumption]. split; [|exact H2].
  unfold ml_comment_err in X. destruct H1 as [H1 H3]. split; [exact H1|]. cbn [l_err].
  destruct (is_eoi_error (l_err e)) eqn:Z; cbn [andb] in X; [destruct (2 <? _)%nat; [rewrite (eoi_merge _ _ _ _ _ _ _ Z) in X|]|];
    injection X as <-; auto.
  cbn. pose proof (since_start t ts (l_rem e) W) as S. unfold OrderCalc.pos in S. rewrite <- S. reflexivity.
Qed.
Hint Resolve low_ml_comment : ord.

Lemma low_ws : okl from ws.
Proof. unfold ws. ok. Qed.
Hint Resolve low_ws : ord.

Lemma low_esc_line : okl from esc_line.
Proof. unfold esc_line. ok. Qed.
Hint Resolve low_esc_line : ord.

Lemma low_node_space : okl from node_space.
Proof. unfold node_space. ok. Qed.
Hint Resolve low_node_space : ord.

Lemma low_line_space : okl from line_space.
Proof. unfold line_space. ok. Qed.
Hint Resolve low_line_space : ord.

Lemma low_slashdash : okl from slashdash.
Proof. unfold slashdash. ok. Qed.
Hint Resolve low_slashdash : ord.

(** A delimiter of [k] bytes lies before the rest. *)
Lemma unclosed_low (e : perror span) l k open s s' x f e' n m : is_eoi_error e = true ->
  merge e (EUnclosed l (sp_before_start k s) open s' x f) = Some e' -> sp_start s = m -> n + k <= m -> n <= starts e'.
Proof.
  intros Z M <- L. rewrite (eoi_merge _ _ _ _ _ _ _ Z) in M. injection M as <-. cbn. lia.
Qed.

Lemma repeat_count {A} (p : parser A) least most : eats 1 p -> forall fuel errs outs alt old cr ts o rest alt',
  r_out (repeat_loop fuel p least most errs outs alt old cr ts) = Ok o rest alt' ->
  List.length o + List.length rest <= List.length outs + List.length ts.
Proof.
  intros H. induction fuel as [|fuel IH]; intros errs outs alt old cr ts o rest alt'; cbn [repeat_loop].
  - cbn. intros [= <- <- _]. rewrite rev_length. lia.
  - destruct (match most with Some m => m <=? List.length outs | None => false end).
    { cbn. intros [= <- <- _]. rewrite rev_length. lia. }
    destruct (r_out (p ts)) as [a r al|e] eqn:O.
    + pose proof (H _ _ _ _ O) as L.  destruct (merge_alts alt al) as [al2 c].
      destruct (match old with Some o => o =? List.length r | None => false end).
      * cbn [r_out rev]. intros [= <- <- _]. rewrite app_length, rev_length. cbn. lia.
      * intros X. apply IH in X. cbn [List.length] in X. lia.
    + destruct (List.length outs <? least); [discriminate|]. destruct (merge_alts alt (Some e)) as [al2 c].
      cbn. intros [= <- <- _]. rewrite rev_length. lia.
Qed.

Lemma then_rest {A B} (p : parser A) (k : A -> parser B) ts ab rest alt : r_out (p_bind p k ts) = Ok ab rest alt ->
  exists r1 alt1 alt2, r_out (p ts) = Ok (fst ab) r1 alt1 /\ r_out (k (fst ab) r1) = Ok (snd ab) rest alt2
    /\ alt = fst (merge_alts alt1 alt2).
Proof.
  unfold p_bind. destruct (r_out (p ts)) as [a r1 alt1|e]; [|discriminate].
  destruct (r_out (k a r1)) as [b r2 alt2|e] eqn:O.
  - destruct (merge_alts alt1 alt2) as [al c] eqn:M. intros [= <- <- <-]. exists r1, alt1, alt2.
    rewrite M. cbn. auto.
  - destruct (lmax_opt e alt1). discriminate.
Qed.

Lemma map_rest {A B} (f : A -> B) (p : parser A) ts b rest alt : r_out (p_map f p ts) = Ok b rest alt ->
  exists a, r_out (p ts) = Ok a rest alt /\ b = f a.
Proof.
  unfold p_map. cbn [r_out]. destruct (r_out (p ts)) as [a r al|e]; [|discriminate]. intros [= <- <- <-]. eauto.
Qed.

Lemma raw_open_len (ts : toks) n rest alt : r_out (p_then_ignore
        (p_ignore_then (p_just 0x72%N)
          (p_map (@List.length char) (p_repeated (p_just 0x23%N))))
        (p_just 0x22%N) ts) = Ok n rest alt -> List.length rest + (n + 2) <= List.length ts.
Proof.
  unfold p_then_ignore, p_ignore_then, p_then. intros H.
  apply map_rest in H. destruct H as [[n' c1] [H ->]].
  apply then_rest in H. destruct H as (r1 & al1 & al2 & H & Q & _). cbn [fst snd] in *.
  apply map_rest in H. destruct H as [[c2 n2] [H ->]].
  apply then_rest in H. destruct H as (r2 & al3 & al4 & H & H2 & _). cbn [fst snd] in *.
  apply map_rest in H2. destruct H2 as [l [H2 ->]].
  unfold p_repeated, p_repeat in H2. apply repeat_count in H2; [|apply eats_just].
  apply eats_just in H. apply eats_just in Q. cbn [List.length] in H2. lia.
Qed.

Lemma low_raw_string : okl from raw_string.
Proof.
  unfold raw_string. apply l_map. apply low_opened; [apply b_raw_open, from_place|intros n; apply b_raw_rest, from_place|].
  intros ts n rest alt e s e' W W1 O F S X. apply raw_open_len in O. pose proof (rest_pos ts rest _ W O) as L.
  unfold raw_string_err in X. destruct (is_eoi_error (l_err e)) eqn:Z.
  - eapply unclosed_low; [exact Z|exact X|exact S|exact L].
  - injection X as <-. destruct F as [_ F]. unfold OrderCalc.pos in *. lia.
Qed.
Hint Resolve low_raw_string : ord.

Lemma low_esc_char : okl from esc_char.
Proof.
  unfold esc_char. ok. apply low_try_start; [|ok]. intros a s e H. unfold esc_code in H.
  destruct (is_scalar _); [discriminate|]. injection H as <-. reflexivity.
Qed.
Hint Resolve low_esc_char : ord.

Lemma low_string_rest : okl from (p_then_ignore
        (p_repeated
          (p_or (p_filter (fun c => negb (c =? 0x22)%N && negb (c =? 0x5C)%N))
                (p_ignore_then (p_just 0x5C%N) esc_char)))
        (p_just 0x22%N)).
Proof. ok. Qed.

(** An opening character, and a rest whose errors may point back to it. *)
Lemma low_after {A} x f (k : parser A) : okl from k ->
  (forall e s, f e s = if is_eoi_error e then f e s else Some e) ->
  (forall e s e', is_eoi_error e = true -> f e s = Some e' -> starts e' = sp_start s - 1) ->
  okl from (p_ignore_then (p_just x) (p_map_err_with_span f k)).
Proof.
  intros K F1 F2. unfold p_ignore_then, p_then. apply l_map.
  apply (low_opened (p_just x) (fun _ => k) (fun _ => f)); [ok|intros _; exact K|].
  intros ts n rest alt e s e' W W1 O F S X. apply eats_just in O.
  pose proof (rest_pos ts rest _ W O) as L. rewrite F1 in X.
  destruct (is_eoi_error (l_err e)) eqn:Z.
  - rewrite (F2 _ _ _ Z X), S. lia.
  - injection X as <-. destruct F as [_ F]. unfold OrderCalc.pos in *. lia.
Qed.

Lemma low_escaped_string : okl from escaped_string.
Proof.
  unfold escaped_string. apply low_after; [apply low_string_rest| |].
  - intros e s. unfold string_err. destruct (is_eoi_error e); reflexivity.
  - intros e s e' Z. unfold string_err. rewrite Z, (eoi_merge _ _ _ _ _ _ _ Z). intros [= <-]. reflexivity.
Qed.
Hint Resolve low_escaped_string : ord.

Lemma low_string : okl from string_.
Proof. unfold string_. ok. Qed.
Hint Resolve low_string : ord.

Lemma low_bare_ident : okl from bare_ident.
Proof.
  unfold bare_ident. apply low_try_start; [|apply b_bare_text, from_place]. intros a s e H. unfold not_keyword in H.
  repeat match type of H with (if ?b then _ else _) = _ => destruct b; [injection H as <-; reflexivity|] end.
  discriminate.
Qed.
Hint Resolve low_bare_ident : ord.

Lemma low_ident : okl from ident.
Proof.
  unfold ident. apply low_try_start; [|ok]. intros a s e H. unfold not_number in H.
  destruct a; [injection H as <-; reflexivity|discriminate].
Qed.
Hint Resolve low_ident : ord.

Lemma low_literal : okl from literal_.
Proof. unfold literal_. ok. Qed.
Hint Resolve low_literal : ord.

Lemma low_type_name : okl from type_name.
Proof. unfold type_name. ok. Qed.
Hint Resolve low_type_name : ord.

Lemma low_type_name_value : okl from type_name_value.
Proof. unfold type_name_value. ok. Qed.
Hint Resolve low_type_name_value : ord.

Lemma low_opt_value : okl from opt_value.
Proof. unfold opt_value, value_. ok. Qed.
Hint Resolve low_opt_value : ord.

Lemma low_item (p : parser literal) (k : parser (option (value span))) : okl from p -> okl from k ->
  okl from (p_try_map literal_item (p_then (p_spanned p) k)).
Proof.
  intros H K. apply low_try_map; [|ok]. intros ts [nm v] rest alt e W O X. unfold p_then in O. apply then_rest in O.
  destruct O as (r1 & al1 & al2 & O & _). cbn [fst] in O. unfold p_spanned, p_map_with_span in O. cbn [r_out] in O.
  destruct (r_out (p ts)) as [l r al|]; [|discriminate]. injection O as <- <- <-.
  unfold literal_item in X. cbn [s_span s_value] in X.
  assert (starts e = sp_start (span_since ts (List.length r))) as ->; [|rewrite since_start by exact W; lia].
  destruct l; destruct v; try discriminate; injection X as <-; reflexivity.
Qed.

Lemma low_literal_item : okl from (p_try_map literal_item (p_then (p_spanned literal_) opt_value)).
Proof. apply low_item; [apply low_literal|apply low_opt_value]. Qed.
Hint Resolve low_literal_item : ord.

Lemma low_ident_item : okl from (p_validate ident_item_check (p_then (p_spanned bare_ident) opt_value)).
Proof.
  apply low_validate; [|ok]. intros [nm v] s e H. cbn in H. destruct v; [discriminate|]. injection H as <-. reflexivity.
Qed.
Hint Resolve low_ident_item : ord.

Lemma low_prop_or_arg_inner : okl from prop_or_arg_inner.
Proof. unfold prop_or_arg_inner. ok. Qed.
Hint Resolve low_prop_or_arg_inner : ord.

Lemma low_prop_or_arg : okl from prop_or_arg.
Proof. unfold prop_or_arg. ok. Qed.
Hint Resolve low_prop_or_arg : ord.

Lemma low_node_items : okl from node_items.
Proof. unfold node_items. ok. Qed.
Hint Resolve low_node_items : ord.

Lemma low_braced n : okl from (nodes_rec n) -> okl from (braced_nodes (nodes_rec n)).
Proof.
  intros H. unfold braced_nodes. apply low_after; [ok| |].
  - intros e s. unfold braces_err. destruct (is_eoi_error e); reflexivity.
  - intros e s e' Z. unfold braces_err. rewrite Z, (eoi_merge _ _ _ _ _ _ _ Z). intros [= <-]. reflexivity.
Qed.

Lemma low_opt_children n : okl from (nodes_rec n) -> okl from (opt_children (nodes_rec n)).
Proof.
  intros H. apply l_or_not, l_then; [apply from_place|ok|]. apply l_spanned, low_braced, H.
Qed.

Lemma low_node n : okl from (nodes_rec n) -> okl from (node_ (nodes_rec n)).
Proof.
  intros H. apply l_map, l_then_ignore; [apply from_place| |ok]. apply l_then; [apply from_place|ok|].
  apply low_opt_children, H.
Qed.

Lemma low_nodes n : okl from (nodes_rec n).
Proof.
  induction n as [|n IH]; cbn [nodes_rec].
  - intros ts W. split; [|constructor]. apply (P_unexpected t from (from_place t) ts [] W).
  - apply l_map, l_separated; [apply from_place| |ok]. apply l_then; [apply from_place|ok|].
    apply l_spanned, low_node, IH.
Qed.

End OrderLow.
