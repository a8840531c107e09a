(** Documents with defects the parser recovers from: proofs. *)

From Coq Require Import NArith ZArith PeanoNat List Bool String Lia ZifyBool.
From Verif Require Import Chars Ast Errors Chumsky Spans Grammar Safe GrammarSafe
  Near GrammarNear NodeSafe DocSafe Kdl KdlChars Good LexSpace LexLit LexIdent PropMap
  Items Nodes NodesComplete Meaning SpanIndep RecoverSpec RecoverCalc.
Import ListNotations.
Local Open Scope list_scope.

Scheme m_node_mut := Minimality for m_node Sort Prop
  with m_children_mut := Minimality for m_children Sort Prop
  with m_braces_mut := Minimality for m_braces Sort Prop
  with m_nodes_mut := Minimality for m_nodes Sort Prop
  with m_node_list_mut := Minimality for m_node_list Sort Prop.
Combined Scheme marred_mut from m_node_mut, m_children_mut, m_braces_mut, m_nodes_mut,
  m_node_list_mut.

Section Recover.
Context {Sp : Type} {E : env Sp}.

Notation parser := (parser Sp).
Notation toks := (toks Sp).
Notation len := (@List.length (tok Sp)).

(** ** Bad escapes *)

Definition hex_error (sp : Sp) (c : char) : perror Sp :=
  EUnexpected (Some "unexpected character"%string) sp (TChar c)
    (expected_kind "hexadecimal digit").

Lemma hex_hit c sp (t : toks) : digit_char 16 c ->
  @hex_digit Sp E ((c, sp) :: t) = Res [] (Ok c t None) [].
Proof.
  intros H. apply is_digit_spec in H; [|lia]. unfold hex_digit, p_filter_map, esc_hex.
  rewrite H. reflexivity.
Qed.

Lemma hex_miss c sp (t : toks) : ~ digit_char 16 c ->
  @hex_digit Sp E ((c, sp) :: t) = Res [] (Err (Located (S (len t)) (hex_error sp c))) [].
Proof.
  intros H. unfold hex_digit, p_filter_map, esc_hex.
  destruct (is_digit 16 c) eqn:D; [exfalso; apply H, is_digit_spec; [lia|exact D]|]. reflexivity.
Qed.

Lemma hex_loop (ds : toks) c sp t : Forall (digit_char 16) (chars ds) ->
  forall fuel outs old cr, List.length ds < fuel ->
  (forall o, old = Some o -> List.length (ds ++ (c, sp) :: t) <= o) ->
  1 <= List.length outs + List.length ds <= 6 ->
  (List.length outs + List.length ds < 6 -> ~ digit_char 16 c) ->
  exists cr', repeat_loop fuel hex_digit 1 (Some 6) [] outs None old cr (ds ++ (c, sp) :: t)
    = Res [] (Ok (rev outs ++ chars ds) ((c, sp) :: t)
        (if List.length outs + List.length ds <? 6
         then Some (Located (S (len t)) (hex_error sp c)) else None)) cr'.
Proof.
  induction ds as [|[d s] ds IH]; intros F fuel outs old cr Hf Ho Hl Hc;
    (destruct fuel as [|fuel]; [lia|]); cbn [repeat_loop app].
  - cbn [List.length] in Hl, Hc. cbn [chars map List.length]. rewrite app_nil_r.
    replace (List.length outs + 0) with (List.length outs) in * by lia.
    destruct (6 <=? List.length outs) eqn:Q.
    + destruct (List.length outs <? 6) eqn:R; [lia|]. eexists. reflexivity.
    + destruct (List.length outs <? 6) eqn:R; [|lia].
      rewrite hex_miss by (apply Hc; lia). cbn [r_out r_crash r_errs].
      destruct (List.length outs <? 1) eqn:R1; [lia|]. eexists. reflexivity.
  - inversion F as [|x y Fd F']; subst. cbn [fst] in Fd. cbn [List.length] in Hf, Hl, Hc.
    destruct (6 <=? List.length outs) eqn:Q; [lia|].
    rewrite hex_hit by exact Fd. cbn [r_out r_crash r_errs merge_alts].
    destruct (match old with Some o => o =? len (ds ++ (c, sp) :: t) | None => false end) eqn:Np.
    { destruct old as [o|]; [|discriminate]. specialize (Ho o eq_refl).
      cbn [app List.length] in Ho. lia. }
    cbn [app].
    destruct (IH F' fuel (d :: outs) (Some (len (ds ++ (c, sp) :: t))) (cr ++ []))
      as [cr' X]; [lia| |cbn [List.length]; lia|cbn [List.length]; intros; apply Hc; lia|].
    { intros o Y. injection Y as <-. lia. }
    exists cr'. rewrite X. cbn [rev List.length chars map fst].
    rewrite <- app_assoc. cbn [app].
    replace (List.length outs + S (List.length ds)) with (S (List.length outs) + List.length ds) by lia.
    reflexivity.
Qed.

Definition code_parser : parser text :=
  p_delimited (p_repeat 1 (Some 6%nat) hex_digit) (p_just 0x7B%N) (p_just 0x7D%N).

Lemma hex_run (ds : toks) (c : N) sp t : Forall (digit_char 16) (chars ds) ->
  1 <= List.length ds <= 6 -> (List.length ds < 6 -> ~ digit_char 16 c) ->
  exists cr', p_repeat 1 (Some 6) hex_digit (ds ++ (c, sp) :: t)
    = Res [] (Ok (chars ds) ((c, sp) :: t)
        (if List.length ds <? 6
         then Some (Located (S (len t)) (hex_error sp c)) else None)) cr'.
Proof.
  intros F L C. unfold p_repeat.
  destruct (hex_loop ds c sp t F (3 + len (ds ++ (c, sp) :: t)) [] None [])
    as [cr' X]; [rewrite app_length; lia|discriminate|exact L|exact C|].
  exists cr'. exact X.
Qed.

Lemma fails_try_map {A B} (f : A -> Sp -> B + perror Sp) p ts a rest e :
  succ (p ts) a rest -> f a (span_since ts (List.length rest)) = inr e ->
  fails_with (p_try_map f p ts) e.
Proof.
  intros [H0 [alt H]] X. unfold p_try_map, fails_with. cbn [r_out r_errs]. rewrite H, X. eauto.
Qed.

Ltac use_run X :=
  match type of X with _ = ?r =>
    match goal with |- context [@p_repeat ?a ?b ?c ?d ?e ?f] =>
      replace (@p_repeat a b c d e f) with r by (symmetry; exact X) end end.

Lemma code_fails t e : bad_code t e -> fails_with (p_try_map esc_code code_parser t) e.
Proof.
  unfold fails_with, code_parser. intros H.
  destruct H as [c sp t C|[o so] c sp t O C|[o so] ds c sp t O L F C N|[o so] ds c sp t O L F N
    |[o so] ds [c sc] t n O Cc L V Sc]; cbn [fst] in *; try subst o.
  - unfold p_try_map, p_delimited, p_then_ignore, p_ignore_then, p_map, p_then, p_bind, p_just.
    apply N.eqb_neq in C. rewrite C. cbn. split; [reflexivity|]. eexists. reflexivity.
  - unfold p_try_map, p_delimited, p_then_ignore, p_ignore_then, p_map, p_then, p_bind, p_just.
    rewrite N.eqb_refl. cbn [r_out r_errs]. unfold p_repeat.
    change (3 + len ((c, sp) :: t)) with (S (3 + len t)). cbn [repeat_loop].
    rewrite hex_miss by exact C. cbn. split; [reflexivity|]. eexists. reflexivity.
  - unfold p_try_map, p_delimited, p_then_ignore, p_ignore_then, p_map, p_then, p_bind, p_just.
    rewrite N.eqb_refl. cbn [r_out r_errs].
    destruct (hex_run ds c sp t F) as [cr X]; [lia|auto|]. use_run X. cbn [r_out r_errs].
    destruct (List.length ds <? 6) eqn:Q; [|lia]. cbn [merge_alts r_out r_errs snd].
    apply N.eqb_neq in N. rewrite N. cbn [fail unexpected r_out r_errs lmax_opt lmax l_rem].
    cbn [List.length]. unfold lmax. cbn [l_rem]. rewrite Nat.compare_refl. cbn. split; [reflexivity|].
    eexists. reflexivity.
  - unfold p_try_map, p_delimited, p_then_ignore, p_ignore_then, p_map, p_then, p_bind, p_just.
    rewrite N.eqb_refl. cbn [r_out r_errs].
    destruct (hex_run ds c sp t F) as [cr X]; [lia|lia|]. use_run X. cbn [r_out r_errs].
    rewrite L. cbn [Nat.ltb Nat.leb merge_alts r_out r_errs snd].
    apply N.eqb_neq in N. rewrite N. cbn. split; [reflexivity|]. eexists. reflexivity.
  - subst c. apply digits_value_hex in V. destruct V as [F V].
    apply (fails_try_map esc_code code_parser _ (chars ds) t).
    + eapply succ_delimited; [apply succ_just| |apply succ_just].
      apply succ_repeat_1_6 with (l := chars ds).
      * apply (schain_one _ _ one_hex). exact F.
      * rewrite chars_len. exact L.
      * left. apply one_hex. unfold chars, stop; cbn [map fst].
        rewrite <- is_digit_spec by lia. discriminate.
    + unfold esc_code. rewrite V.
      destruct (is_scalar n) eqn:Q; [exfalso; apply Sc, is_scalar_spec, Q|].
      rewrite <- (span_since_of ((0x7B%N, so) :: ds ++ [(0x7D%N, sc)]) t) by discriminate.
      cbn [app]. rewrite <- app_assoc. reflexivity.
Qed.

Lemma esc_char_bad sp x rest e :
  Forall (fun c => ~ resumes_at c) (chars x) ->
  (exists c t, chars rest = c :: t /\ resumes_at c) ->
  bad_code (x ++ rest) e ->
  yields (esc_char ((0x75%N, sp) :: x ++ rest)) 0%N [e] rest.
Proof.
  intros F R B. rewrite esc_char_eq. apply y_or_r; [eexists; reflexivity|].
  unfold esc_unicode. eapply y_ignore_s; [apply succ_just|].
  apply y_recover.
  - apply code_fails, B.
  - eapply Forall_impl; [|exact F]. intros c H. cbv beta in *.
    destruct (esc_stop c) eqn:Q; [|reflexivity]. exfalso. apply H.
    unfold esc_stop in Q. unfold resumes_at. lia.
  - destruct R as [c [t [X Y]]]. exists c, t. split; [exact X|].
    unfold resumes_at in Y. unfold esc_stop. lia.
Qed.

(** ** Strings *)

Lemma y_string_chars s rest es : m_body s rest es ->
  exists l, ychain str_char (s ++ rest) l es rest.
Proof.
  induction 1 as [rest|[c sp] s rest es Hq Hb B [l IH]|[b sb] x s rest v es Hb He B [l IH]
    |[b sb] [u su] x s rest e es Hb Hu F R C B [l IH]]; cbn [fst] in *.
  - exists []. constructor.
  - exists (c :: l). cbn [app].
    eapply (YChain_cons _ _ c _ l [] es); [| |exact IH].
    + apply yields_succ. apply succ_or_l. apply succ_filter. lia.
    + cbn [List.length]. lia.
  - subst b. exists (v :: l). cbn [app]. rewrite <- app_assoc.
    eapply (YChain_cons _ _ v _ l [] es); [| |exact IH].
    + apply yields_succ. apply succ_or_r; [apply failed_filter; reflexivity|].
      eapply succ_ignore_then; [apply succ_just|]. apply esc_char_complete. exact He.
    + cbn [List.length]. rewrite !app_length. lia.
  - subst b u. exists (0%N :: l). cbn [app]. rewrite <- app_assoc.
    eapply (YChain_cons _ _ 0%N _ l [e] es); [| |exact IH].
    + apply y_or_r; [apply failed_filter; reflexivity|].
      eapply y_ignore_s; [apply succ_just|]. apply esc_char_bad; assumption.
    + cbn [List.length]. rewrite !app_length. lia.
Qed.

Lemma m_string_hd s es : m_string s es -> exists t, chars s = 0x22%N :: t.
Proof. destruct 1 as [[a sa] s b es A B M]. cbn [fst] in A. subst a. eexists. reflexivity. Qed.

Lemma bad_code_app t e r : bad_code t e -> bad_code (t ++ r) e.
Proof.
  destruct 1 as [c sp t C|o c sp t O C|o ds c sp t O L F C N|o ds c sp t O L F N
    |o ds c t n O Cc L V Sc]; cbn [app]; try rewrite <- app_assoc; cbn [app].
  - constructor; assumption.
  - apply BC_first; assumption.
  - apply BC_next; assumption.
  - apply BC_close; assumption.
  - eapply BC_value; eassumption.
Qed.

Lemma m_body_app s rest es r : m_body s rest es -> m_body s (rest ++ r) es.
Proof.
  induction 1 as [rest|c s rest es Hq Hb B IH|b x s rest v es Hb He B IH
    |b u x s rest e es Hb Hu F [c [t [X R]]] C B IH].
  - constructor.
  - constructor; assumption.
  - econstructor; eassumption.
  - apply MB_bad; try assumption.
    + exists c, (t ++ chars r). split; [|exact R]. rewrite app_assoc, chars_app, X. reflexivity.
    + rewrite !app_assoc. rewrite app_assoc in C. apply bad_code_app, C.
Qed.

Lemma y_escaped s es rest : m_string s es ->
  exists t, yields (escaped_string (s ++ rest)) t es rest.
Proof.
  rewrite escaped_string_eq. destruct 1 as [[a sa] s [b sb] es A B M]. cbn [fst] in A, B. subst.
  apply (m_body_app _ _ _ rest) in M. cbn [app] in M.
  apply y_string_chars in M. destruct M as [l M]. exists l.
  cbn [app]. rewrite <- app_assoc. cbn [app].
  eapply y_ignore_s; [apply succ_just|]. apply y_map_err_with_span.
  eapply y_then_ignore_s; [|apply succ_just]. apply y_repeated; [exact M|].
  apply failed_or; [apply failed_filter; reflexivity|].
  apply failed_ignore_then1, failed_just. discriminate.
Qed.

Lemma y_string s es rest : m_string s es -> exists t, yields (string_ (s ++ rest)) t es rest.
Proof.
  intros H. destruct (y_escaped s es rest H) as [t Y]. exists t. unfold string_.
  apply y_or_r; [|exact Y]. apply m_string_hd in H. destruct H as [u X].
  eapply rej_failed_hd; [apply rej_raw_string|rewrite chars_app, X; reflexivity|reflexivity].
Qed.

(** ** Names and values *)

Lemma y_ident s es rest : m_ident s rest es -> stop (digit_char 10) (chars rest) ->
  exists t, yields (ident (s ++ rest)) t es rest.
Proof.
  intros H R. destruct H as [s rest n H|s rest es H].
  - exists n. apply yields_succ, ident_complete; assumption.
  - destruct (y_string s es rest H) as [t Y]. exists t. rewrite ident_eq.
    apply m_string_hd in H. destruct H as [u X].
    assert (hd_error (chars (s ++ rest)) = Some 0x22%N) as Hd
      by (rewrite chars_app, X; reflexivity).
    eapply y_try_map with (a := inr t); [|reflexivity]. unfold p_choice.
    apply y_choice_miss.
    + apply failed_map. eapply rej_failed_hd; [apply rej_number|exact Hd|reflexivity].
    + intros ?. apply y_choice_miss.
      * apply failed_map. eapply rej_failed_hd; [apply rej_bare_ident|exact Hd|reflexivity].
      * intros ?. apply y_choice_hit. apply (y_map inr). exact Y.
Qed.

Lemma y_literal_string s es rest : m_string s es ->
  exists t, yields (literal_ (s ++ rest)) (LString t) es rest.
Proof.
  intros H. destruct (y_string s es rest H) as [t Y]. exists t.
  rewrite literal_eq. unfold p_choice. apply y_choice_hit. apply (y_map LString). exact Y.
Qed.

Lemma y_literal s es rest : m_literal s es -> num_stop (chars rest) ->
  exists l, yields (literal_ (s ++ rest)) l es rest.
Proof.
  intros H R. destruct H as [s l H|s es H].
  - exists l. apply yields_succ, literal_complete; assumption.
  - destruct (y_literal_string s es rest H) as [t Y]. eauto.
Qed.

Lemma m_literal_hd s es : m_literal s es -> exists c t, chars s = c :: t /\ f_lit c = true.
Proof.
  destruct 1 as [s l H|s es H]; [eapply literal_start; eauto|].
  apply m_string_hd in H. destruct H as [t X]. exists 0x22%N, t. auto.
Qed.

Lemma hd_ne (s : toks) c t : chars s = c :: t -> s <> [].
Proof. intros H ->. discriminate. Qed.

Lemma y_spanned_literal s es rest : m_literal s es -> num_stop (chars rest) ->
  exists x, yields (p_spanned literal_ (s ++ rest)) x es rest.
Proof.
  intros H R. destruct (y_literal s es rest H R) as [l Y].
  apply m_literal_hd in H. destruct H as [c [t [X _]]].
  eexists. apply y_spanned; [eapply hd_ne; eauto|exact Y].
Qed.

Lemma m_type_hd s es : m_type s es -> exists t, chars s = 0x28%N :: t.
Proof. destruct 1 as [[o so] s c es A B M]. cbn [fst] in A. subst. eexists. reflexivity. Qed.

Lemma m_ident_hd s r r' es : hd_error (chars r) = hd_error (chars r') ->
  m_ident s r es -> m_ident s r' es.
Proof.
  intros H. destruct 1 as [s rest n I|s rest es I]; [|constructor 2; exact I].
  econstructor. eapply ident_at_hd; eauto.
Qed.

Lemma y_type s es rest : m_type s es -> exists x, yields (type_name (s ++ rest)) x es rest.
Proof.
  destruct 1 as [[o so] s [c sc] es A B M]. cbn [fst] in A, B. subst.
  unfold type_name. cbn [app]. rewrite <- app_assoc. cbn [app].
  assert (m_ident s ((0x29%N, sc) :: rest) es) as M' by (eapply m_ident_hd; [|exact M]; reflexivity).
  destruct (y_ident s es _ M') as [t Y]; [ch; simpl; rewrite dec_digit_spec; lia|].
  eexists. apply y_map. eapply y_delimited; [apply succ_just|exact Y|apply succ_just].
Qed.

Lemma y_spanned_type s es rest : m_type s es ->
  exists x, yields (p_spanned type_name (s ++ rest)) x es rest.
Proof.
  intros H. destruct (y_type s es rest H) as [l Y].
  apply m_type_hd in H. destruct H as [t X].
  eexists. apply y_spanned; [eapply hd_ne; eauto|exact Y].
Qed.

Lemma y_typed_value st s e1 e2 rest : m_type st e1 -> m_literal s e2 ->
  num_stop (chars rest) ->
  exists v, yields (type_name_value (st ++ s ++ rest)) v (e1 ++ e2) rest.
Proof.
  intros T L R. unfold type_name_value.
  destruct (y_spanned_type st e1 (s ++ rest) T) as [x X].
  destruct (y_spanned_literal s e2 rest L R) as [y Y].
  eexists. apply y_map. eapply y_then; [exact X|exact Y].
Qed.

Lemma y_value s es rest : m_value s es -> num_stop (chars rest) ->
  exists v, yields (value_ (s ++ rest)) v es rest.
Proof.
  intros H R. unfold value_. destruct H as [s es L|st s e1 e2 T L].
  - destruct (y_spanned_literal s es rest L R) as [y Y].
    eexists. apply y_or_r; [|apply y_map; exact Y].
    apply typed_value_failed. apply m_literal_hd in L.
    destruct L as [c [t [X Z]]]. rewrite chars_app, X. cbn [app hd_error].
    intros Q. inversion Q; subst. discriminate.
  - rewrite <- app_assoc. destruct (y_typed_value st s e1 e2 rest T L R) as [v V].
    exists v. apply y_or_l; [exact V|]. apply m_type_hd in T. destruct T as [t X].
    apply failed_map, failed_map_with_span.
    eapply rej_failed_hd; [apply rej_literal|rewrite chars_app, X; reflexivity|reflexivity].
Qed.

Lemma y_opt_value e s es rest : fst e = 0x3D%N -> m_value s es -> num_stop (chars rest) ->
  exists v, yields (opt_value (e :: s ++ rest)) (Some v) es rest.
Proof.
  intros X V R. destruct e as [c sp]. cbn [fst] in X. subst.
  destruct (y_value s es rest V R) as [v Y]. exists v. unfold opt_value.
  apply y_or_not_some. eapply y_ignore_s; [apply succ_just|exact Y].
Qed.

(** ** Elements *)

(** Literals do not begin where a bare identifier does. *)
Lemma literal_failed_arg s (rest : toks) : bare_text (chars s) ->
  (forall k, In k keywords -> ~ prefix k (chars s)) ->
  follow (chars rest) ->
  failed (literal_ (s ++ rest)).
Proof.
  intros B K R. rewrite literal_eq. unfold p_choice.
  assert (~ In 0x22%N (chars s)) as Nq.
  { intros I. assert (Forall (fun c => c <> 0x22%N) (chars s)) as F.
    { assert (forall c, ident_char c -> c <> 0x22%N) as A.
      { intros c C ->. apply id_char_spec in C. discriminate. }
      assert (forall c, ident_start c -> c <> 0x22%N) as A2.
      { intros c C ->. apply id_sans_dig_spec in C. discriminate. }
      assert (forall c, sign_char c -> c <> 0x22%N) as A3.
      { intros c [->| ->]; discriminate. }
      destruct B; repeat constructor; eauto using Forall_impl. }
    rewrite Forall_forall in F. eapply F; eauto. }
  assert (forall c t, chars rest = c :: t -> c <> 0x22%N /\ c <> 0x23%N
    /\ forall k, In k keywords -> ~ In c k) as Rc.
  { intros c t X. rewrite X in R. cbn [follow] in R. unfold ws_chars, newline_chars in R.
    cbn [In] in R. split; [lia|]. split; [lia|].
    intros k [<-|[<-|[<-|[]]]] I; cbn in I; lia. }
  apply failed_choice; [|intros ?; apply failed_choice; [|intros ?; apply failed_choice;
    [|intros ?; apply failed_choice_nil]]].
  - apply failed_map. unfold string_. apply failed_or.
    + destruct (failed_or_good raw_string (s ++ rest) quiet_raw_string S_raw_string)
        as [F|[a [r G]]]; [exact F|exfalso].
      apply raw_string_sound in G. destruct G as [u [X T]].
      apply (f_equal chars) in X. rewrite !chars_app in X. destruct T as [n t _].
      assert (forall (a b x : text) n, a ++ b = repeat 0x23%N n ++ 0x22%N :: x ->
        (forall c t, b = c :: t -> c <> 0x22%N /\ c <> 0x23%N) ->
        ~ In 0x22%N a -> False) as Z.
      { clear. induction a as [|c a IH]; intros b x n H K N.
        - cbn [app] in H. destruct b as [|c b]; [destruct n; discriminate|].
          destruct (K c b eq_refl) as [K1 K2]. destruct n; cbn in H; inversion H; congruence.
        - destruct n as [|n]; cbn in H; inversion H; subst.
          + apply N. left. reflexivity.
          + eapply (IH b x n); [eassumption|exact K|]. intros I. apply N. right. exact I. }
      destruct (chars s) as [|c cs]; [inversion B|]. cbn [app] in X. inversion X as [[X1 X2]].
      rewrite <- !app_assoc in X2. cbn [app] in X2.
      eapply Z; [exact X2| |].
      * intros d v Y. destruct (Rc d v Y) as [A1 [A2 _]]. auto.
      * intros I. apply Nq. right. exact I.
    + eapply (rej_failed (fun x => (x =? 0x22)%N)); [apply rej_escaped_string|].
      rewrite hd_chars, chars_app. destruct (chars s) as [|c cs]; [inversion B|].
      cbn [app]. apply N.eqb_neq. intros ->. apply Nq. left. reflexivity.
  - apply keyword_failed. intros k I [x X]. apply (K k I).
    rewrite chars_app in X.
    assert (forall (k a b x : text), a ++ b = k ++ x ->
      (forall c t, b = c :: t -> ~ In c k) -> prefix k a) as Z.
    { clear. induction k as [|c k IH]; intros a b x H N.
      - exists a. reflexivity.
      - destruct a as [|d a]; cbn in H.
        + exfalso. subst b. apply (N c (k ++ x) eq_refl). left. reflexivity.
        + inversion H; subst. destruct (IH a b x) as [y ->];
            [assumption|intros e t Y J; apply (N e t Y); right; exact J|].
          exists y. reflexivity. }
    eapply Z; [exact X|]. intros c t Y. destruct (Rc c t Y) as [_ [_ A]]. apply A, I.
  - apply number_failed. intros n r l X. rewrite chars_app in X.
    eapply bare_not_number; [exact B| |exact X]. apply follow_digit, R.
Qed.

Lemma m_key_literal s es rest : m_string s es \/ (exists k, string_text (chars s) k /\ es = []) ->
  exists t, yields (p_spanned literal_ (s ++ rest)) (Spanned (span_of s) (LString t)) es rest.
Proof.
  intros [H|[k [H ->]]].
  - destruct (y_literal_string s es rest H) as [t Y]. exists t.
    apply m_string_hd in H. destruct H as [u X].
    apply y_spanned; [eapply hd_ne; eauto|exact Y].
  - exists k. apply yields_succ. apply succ_spanned.
    + apply ne_chars. eapply literal_ne. constructor. exact H.
    + rewrite literal_eq. unfold p_choice. apply succ_choice_hit. apply (succ_map LString).
      apply string_complete, H.
Qed.

Lemma y_inner s es rest : m_plain s rest es -> follow (chars rest) ->
  exists j, yields (prop_or_arg_inner (s ++ rest)) j es rest.
Proof.
  intros H R. rewrite inner_eq. unfold p_choice.
  pose proof (follow_num _ R) as Rn. pose proof (follow_eq _ R) as Re.
  destruct H as [s rest es V|sk e s rest e1 e2 K Ee V|s rest B Be K].
  - destruct V as [s es L|st s e1 e2 T L].
    + destruct (y_spanned_literal s es rest L Rn) as [x X].
      exists (Arg_ (Value None x)). apply y_choice_hit. unfold item1. eapply y_try_map.
      * eapply y_then_l; [exact X|apply opt_value_none, Re].
      * unfold literal_item. destruct x as [sp [| | | |]]; reflexivity.
    + destruct (y_typed_value st s e1 e2 rest T L Rn) as [v Y]. exists (Arg_ v).
      apply m_type_hd in T. destruct T as [t X].
      assert (hd_error (chars ((st ++ s) ++ rest)) = Some 0x28%N) as Hd.
      { rewrite !chars_app, X. reflexivity. }
      apply y_choice_miss.
      * apply failed_try_map, failed_then1, failed_map_with_span.
        eapply rej_failed_hd; [apply rej_literal|exact Hd|reflexivity].
      * intros ?. apply y_choice_miss.
        -- apply failed_map, failed_validate, failed_then1, failed_map_with_span.
           eapply rej_failed_hd; [apply rej_bare_ident|exact Hd|reflexivity].
        -- intros ?. apply y_choice_hit. apply (y_map Arg_). rewrite <- app_assoc. exact Y.
  - rewrite <- app_assoc. cbn [app].
    destruct (y_opt_value e s e2 rest Ee V Rn) as [v Y].
    assert (hd_error (chars (e :: s ++ rest)) = Some 0x3D%N) as Hd
      by (rewrite chars_c; cbn [hd_error]; f_equal; exact Ee).
    assert ((m_string sk e1 \/ (exists k, string_text (chars sk) k /\ e1 = [])) \/
      (e1 = [] /\ bare_text (chars sk) /\ forall k, In k keywords -> ~ prefix k (chars sk))) as [D|[-> [B Kw]]].
    { destruct K as [sk k K|sk es K]; [|auto]. remember (chars sk) as cs.
      destruct K as [cs k K|cs B Kw]; subst; eauto 6. }
    + destruct (m_key_literal sk e1 (e :: s ++ rest) D) as [k X].
      exists (Prop_ (Spanned (span_of sk) k) v). apply y_choice_hit. unfold item1.
      eapply y_try_map; [eapply y_then; [exact X|exact Y]|reflexivity].
    + exists (Prop_ (Spanned (span_of sk) (chars sk)) v). apply y_choice_miss.
      * apply failed_try_map, failed_then1, failed_map_with_span.
        apply literal_failed_bare; auto.
      * intros ?. apply y_choice_hit. unfold item2.
        apply (y_map ident_item _ _ (Spanned (span_of sk) (chars sk), Some v)).
        rewrite <- (app_nil_r ([] ++ e2)). cbn [app].
        apply (y_validate ident_item_check _ _ (Spanned (span_of sk) (chars sk), Some v) _ e2 None).
        -- eapply y_then_s; [apply succ_spanned|exact Y].
           ++ apply ne_chars. intros Z. rewrite Z in B. inversion B.
           ++ apply bare_ident_complete; [exact B|]. apply key_end, Hd.
        -- reflexivity.
  - assert (s <> []) as Ne by (apply ne_chars; intros Z; rewrite Z in B; inversion B).
    eexists. apply y_choice_miss.
    + apply failed_try_map, failed_then1, failed_map_with_span.
      apply literal_failed_arg; auto.
    + intros ?. apply y_choice_hit. unfold item2. apply y_map.
      apply (y_validate ident_item_check _ _ (Spanned (span_of s) (chars s), None) _ []
        (Some (bare_argument s))).
      * apply yields_succ. eapply succ_then; [apply succ_spanned|apply opt_value_none, Re].
        -- exact Ne.
        -- apply bare_ident_complete; [exact B|exact Be].
      * unfold ident_item_check. cbn [snd]. rewrite span_since_of by exact Ne. reflexivity.
Qed.

Lemma m_value_start s es : m_value s es -> exists c u, chars s = c :: u /\ item_start c.
Proof.
  unfold item_start. destruct 1 as [s es L|st s e1 e2 T L].
  - apply m_literal_hd in L. destruct L as [c [u [-> H]]]. exists c, u. auto.
  - apply m_type_hd in T. destruct T as [u T]. rewrite chars_app, T.
    exists 0x28%N, (u ++ chars s). auto.
Qed.

Lemma m_plain_start s (rest : toks) es : m_plain s rest es -> exists c u, chars s = c :: u /\ item_start c.
Proof.
  destruct 1 as [s rest es V|sk e s rest e1 e2 K Ee V|s rest B Be K].
  - eapply m_value_start, V.
  - rewrite chars_app. destruct K as [sk k K|sk es K].
    + remember (chars sk) as cs. destruct K as [cs k K|cs B Kw].
      * apply string_start in K. destruct cs as [|c u]; [destruct K; discriminate|].
        exists c, (u ++ chars (e :: s)). split; [reflexivity|]. left. cbn in K.
        destruct K as [K|K]; inversion K; reflexivity.
      * apply bare_start in B. destruct B as [c [u [-> H]]].
        exists c, (u ++ chars (e :: s)). split; [reflexivity|]. right. left.
        apply f_bare_start, H.
    + apply m_string_hd in K. destruct K as [u X]. rewrite X.
      exists 0x22%N, (u ++ chars (e :: s)). split; [reflexivity|]. left. reflexivity.
  - apply bare_start in B. destruct B as [c [u [X H]]].
    exists c, u. split; [exact X|]. right. left. apply f_bare_start, H.
Qed.

Lemma y_item s es rest : m_item s rest es -> follow (chars rest) ->
  exists j, yields (prop_or_arg (s ++ rest)) j es rest.
Proof.
  intros H R. unfold prop_or_arg. destruct H as [s rest es P|d s rest es D P].
  - destruct (y_inner s es rest P R) as [j S]. exists j.
    apply y_or_r; [|exact S].
    apply failed_map, failed_ignore_then1, failed_ignore_then1, failed_begin_comment.
    apply m_plain_start in P. destruct P as [c [u [X Y]]]. rewrite chars_app, X.
    intros [y Z]. inversion Z; subst. apply item_start_facts in Y. destruct Y. congruence.
  - destruct (y_inner s es rest P R) as [j S]. exists Ignore_.
    apply m_plain_start in P. destruct P as [c [u [X Y]]]. apply item_start_facts in Y.
    assert (ns_stop (chars (s ++ rest))) as Ns.
    { rewrite chars_app, X. apply ns_stop_start; try apply Y.
      pose proof (slashdash_not_ws _ _ _ D) as W. rewrite chars_app, X in W. exact W. }
    destruct (dash_parts_complete d (s ++ rest) D Ns) as [r1 [l [S1 S2]]].
    rewrite <- app_assoc. apply y_or_l.
    + apply (y_map (fun _ => Ignore_) _ _ j).
      eapply y_ignore_s; [|exact S]. eapply succ_ignore_then; [exact S1|exact S2].
    + destruct (slashdash_hd _ _ _ D) as [t Hd].
      eapply rej_failed_hd; [apply rej_prop_or_arg_inner|rewrite Hd; reflexivity|reflexivity].
Qed.

Lemma m_item_ns_stop s (R : toks) es : m_item s R es -> not_ws (chars (s ++ R)) ->
  ns_stop (chars (s ++ R)).
Proof.
  intros H W. destruct H as [s R es P|d s R es D P].
  - apply m_plain_start in P. destruct P as [c [u [X Y]]].
    apply item_start_facts in Y. rewrite chars_app, X in *. cbn [app] in *.
    apply ns_stop_start; [apply Y|apply Y|exact W].
  - rewrite <- app_assoc. eapply slashdash_ns_stop, D.
Qed.

Lemma m_items_follow s (R : toks) es : m_items s R es -> follow (chars R) ->
  follow (chars (s ++ R)).
Proof.
  intros H F. destruct H as [R|sp s t R e1 e2 Ne N W I T]; [exact F|].
  rewrite <- app_assoc. apply (follow_spaces true).
  - rewrite <- app_assoc. exact N.
  - intros ->. congruence.
Qed.

Lemma y_items s R es : m_items s R es -> follow (chars R) -> items_end R ->
  exists is, yields (node_items (s ++ R)) is es R.
Proof.
  intros H F En. rewrite node_items_eq.
  assert (exists is, ychain item_loop (s ++ R) is es R) as [is Ch].
  { induction H as [R|sp s t R e1 e2 Ne N W I T IH].
    - exists []. constructor.
    - destruct (IH F En) as [is Ch].
      destruct (y_item s e1 (t ++ R) I (m_items_follow _ _ _ T F)) as [j S].
      destruct (node_spaces1_complete sp (s ++ t ++ R) N (m_item_ns_stop _ _ _ I W) Ne) as [u L].
      exists (j :: is).
      rewrite <- !app_assoc. econstructor; [| |exact Ch].
      + rewrite item_loop_eq. eapply y_ignore_s; [exact L|exact S].
      + rewrite !app_length. destruct sp; [congruence|]. cbn [List.length]. lia. }
  exists is. apply y_repeated; [exact Ch|apply items_end_failed, En].
Qed.

(** ** Nodes *)

Lemma m_braces_hd b (R : toks) es : m_braces b R es -> hd_error (chars (b ++ R)) = Some 0x7B%N.
Proof.
  destruct 1 as [[o so] s c rest es A B N]. cbn [fst] in A. subst. reflexivity.
Qed.

Lemma m_braces_ne b (R : toks) es : m_braces b R es -> b <> [].
Proof. destruct 1. discriminate. Qed.

Lemma m_tail_end sc ss sm (rest : toks) es :
  m_children sc (ss ++ sm ++ rest) es -> nspaces true ss (sm ++ rest) ->
  terminator_at (chars sm) (chars rest) ->
  items_end (sc ++ ss ++ sm ++ rest) /\ follow (chars (sc ++ ss ++ sm ++ rest)).
Proof.
  intros C N T. inversion C as [R|sp b R l Ns B|sp d b R l Ns D B]; subst.
  - cbn [app]. split.
    + exists ss, (sm ++ rest). split; [reflexivity|]. split; [exact N|].
      split; [apply ns_stop_terminator, T|apply poa_failed_terminator, T].
    + apply (follow_spaces true); [exact N|]. intros _. apply follow_terminator, T.
  - pose proof (m_braces_hd _ _ _ B) as Hd. rewrite <- app_assoc. split.
    + exists sp, (b ++ ss ++ sm ++ rest). split; [reflexivity|]. split; [exact Ns|].
      split; [apply hd_ns_stop, Hd|]. apply (poa_failed 0x7B%N); auto.
    + apply (follow_spaces true); [exact Ns|]. intros _.
      destruct (chars (b ++ ss ++ sm ++ rest)); [discriminate|]. injection Hd as ->.
      cbn [follow]. right. right. cbn. auto.
  - pose proof (m_braces_hd _ _ _ B) as Hd. rewrite <- !app_assoc. split.
    + exists sp, (d ++ b ++ ss ++ sm ++ rest). split; [reflexivity|]. split; [exact Ns|].
      split; [apply (slashdash_ns_stop true), D|]. apply poa_failed_skipped; auto.
    + apply (follow_spaces true); [exact Ns|]. intros _.
      destruct (slashdash_hd _ _ _ D) as [t ->]. cbn [follow]. right. right. cbn. auto.
Qed.

Lemma m_ident_start s r es : m_ident s r es ->
  exists c u, chars s = c :: u /\ (sign_char c \/ ident_start c \/ c = 0x22%N).
Proof.
  destruct 1 as [s rest n I|s rest es I]; [eapply ident_at_start; eauto|].
  apply m_string_hd in I. destruct I as [t X]. exists 0x22%N, t. auto.
Qed.

Lemma m_node_start s (rest : toks) es : m_node s rest es ->
  exists c u, chars s = c :: u
    /\ (c = 0x28%N \/ sign_char c \/ ident_start c \/ c = 0x22%N).
Proof.
  destruct 1 as [st sn si sc ss sm r e1 e2 e3 e4 OT Id].
  destruct OT as [|s es T].
  - cbn [app]. apply m_ident_start in Id. destruct Id as [c [u [X Y]]].
    rewrite chars_app, X. exists c, (u ++ chars (si ++ sc ++ ss ++ sm)). auto.
  - apply m_type_hd in T. destruct T as [u T]. rewrite chars_app, T.
    exists 0x28%N, (u ++ chars (sn ++ si ++ sc ++ ss ++ sm)). auto.
Qed.

Definition node_y (s rest : toks) (es : list (perror Sp)) : Prop :=
  forall n, len s <= n -> exists nd, yields (node_ (nodes_rec n) (s ++ rest)) nd es rest.
Definition children_y (sc R : toks) (es : list (perror Sp)) : Prop :=
  sc <> [] -> forall n, len sc <= n -> exists o,
  yields (opt_children (nodes_rec n) (sc ++ R)) o es R.
Definition braces_y (b R : toks) (es : list (perror Sp)) : Prop :=
  forall n, len b <= S n -> exists l, yields (braced_nodes (nodes_rec n) (b ++ R)) l es R.
Definition nodes_y (s rest : toks) (es : list (perror Sp)) : Prop :=
  closing_at rest -> forall n, len s < n -> exists l, yields (nodes_rec n (s ++ rest)) l es rest.
Definition list_y (s rest : toks) (es : list (perror Sp)) : Prop :=
  closing_at rest ->
  ls_stop (chars (s ++ rest)) /\
  forall n sp, len s <= n -> lspaces true sp (s ++ rest) ->
  exists items r x,
    ysepc (item_parser (nodes_rec n)) (p_repeated line_space) (sp ++ s ++ rest) items es r
    /\ succ (p_repeated line_space r) x rest.

Lemma yields_all :
  (forall s rest es, m_node s rest es -> node_y s rest es) /\
  (forall s rest es, m_children s rest es -> children_y s rest es) /\
  (forall s rest es, m_braces s rest es -> braces_y s rest es) /\
  (forall s rest es, m_nodes s rest es -> nodes_y s rest es) /\
  (forall s rest es, m_node_list s rest es -> list_y s rest es).
Proof.
  apply marred_mut.
  - (* node *)
    intros st sn si sc ss sm rest e1 e2 e3 e4 OT Id It Ch IHc Ns Tm n Hn.
    destruct (m_tail_end sc ss sm rest e4 Ch Ns Tm) as [En Fo].
    destruct (y_items si _ e3 It Fo En) as [is Si].
    pose proof (m_items_follow _ _ _ It Fo) as Fn.
    assert (exists o, yields (opt_children (nodes_rec n) (sc ++ ss ++ sm ++ rest)) o e4
      (ss ++ sm ++ rest)) as [o So].
    { destruct sc as [|x sc]; [|apply IHc; [discriminate|rewrite !app_length in Hn; lia]].
      exists None. assert (e4 = []) as ->.
      { inversion Ch as [R|sp b R l0 Nsp B Q|]; subst; [reflexivity| |].
        - exfalso. apply app_nil2 in Q. destruct Q as [_ ->]. inversion B.
        - match goal with Q : _ ++ _ ++ _ = [] |- _ => apply app_nil2 in Q; destruct Q as [_ Q];
            apply app_nil2 in Q; destruct Q as [-> _] end.
          match goal with D : slashdash_at _ [] _ |- _ => inversion D end. }
      apply yields_succ. rewrite opt_children_eq. apply succ_or_not_none.
      destruct (terminator_no_brace sm rest Tm) as [Nb Nd].
      destruct (node_spaces_complete ss (sm ++ rest) Ns (ns_stop_terminator _ _ Tm)) as [u L].
      eapply failed_then2; [eapply succ_ignore_then; [exact L|apply slashdash_none, Nd]|].
      apply failed_map_with_span, braced_failed, Nb. }
    destruct (node_spaces_complete ss (sm ++ rest) Ns (ns_stop_terminator _ _ Tm)) as [u L].
    assert (exists t, yields (p_or_not (p_spanned type_name)
      (st ++ sn ++ si ++ sc ++ ss ++ sm ++ rest)) t e1 (sn ++ si ++ sc ++ ss ++ sm ++ rest))
      as [ty Sty].
    { destruct OT as [|s es T].
      - exists None. apply yields_succ.
        cbn [app]. apply succ_or_not_none, failed_map_with_span, type_name_failed.
        apply m_ident_start in Id. destruct Id as [c [v [X Y]]]. rewrite chars_app, X.
        cbn [app hd_error]. intros Q. injection Q as ->.
        destruct Y as [[Y|Y]|[[[Y|[_ [Y _]]] _]|Y]]; try discriminate.
        apply Y. cbn. tauto.
      - destruct (y_spanned_type s es (sn ++ si ++ sc ++ ss ++ sm ++ rest) T) as [x X].
        exists (Some x). apply y_or_not_some, X. }
    destruct (y_ident sn e2 _ Id (follow_digit _ Fn)) as [nm Snm].
    assert (sn <> []) as Ne
      by (apply m_ident_start in Id; destruct Id as [c [v [X _]]]; eapply hd_ne; eauto).
    rewrite node_eq. eexists. apply y_map. rewrite <- !app_assoc.
    eapply y_then_ignore_s.
    + replace (e1 ++ e2 ++ e3 ++ e4) with (((e1 ++ e2) ++ e3) ++ e4)
        by (rewrite <- !app_assoc; reflexivity).
      eapply y_then; [eapply y_then; [eapply y_then; [exact Sty|]|exact Si]|exact So].
      apply y_spanned; [exact Ne|exact Snm].
    + eapply succ_then; [exact L|apply terminator_complete, Tm].
  - intros rest X. congruence.
  - (* children *)
    intros sp b rest es Ns B IH _ n Hn. rewrite app_length in Hn.
    pose proof (m_braces_hd _ _ _ B) as Hd.
    destruct (IH n ltac:(lia)) as [l Yl].
    exists (Some (None, Spanned (span_of b) l)).
    rewrite opt_children_eq. apply y_or_not_some. rewrite <- app_assoc.
    destruct (node_spaces_complete sp (b ++ rest) Ns (hd_ns_stop _ Hd)) as [u L].
    eapply y_then_s; [eapply succ_ignore_then; [exact L|apply slashdash_none]|].
    + eapply hd_no_dash; [exact Hd|discriminate].
    + apply y_spanned; [eapply m_braces_ne; eauto|exact Yl].
  - intros sp d b rest es Ns D B IH _ n Hn. rewrite !app_length in Hn.
    pose proof (m_braces_hd _ _ _ B) as Hd.
    destruct (IH n ltac:(lia)) as [l Yl].
    exists (Some (Some tt, Spanned (span_of b) l)).
    rewrite opt_children_eq. apply y_or_not_some. rewrite <- !app_assoc.
    destruct (node_spaces_complete sp (d ++ b ++ rest) Ns (slashdash_ns_stop _ _ _ D)) as [u L].
    eapply y_then_s; [eapply succ_ignore_then; [exact L|apply slashdash_some; [exact D|apply hd_ns_stop, Hd]]|].
    apply y_spanned; [eapply m_braces_ne; eauto|exact Yl].
  - (* braces *)
    intros [o so] s [c sc] rest es A B N IH n Hn. cbn [fst] in A, B. subst.
    cbn [List.length] in Hn. rewrite app_length in Hn. cbn [List.length] in Hn.
    destruct (IH (or_intror eq_refl) n ltac:(lia)) as [l Yl]. exists l.
    rewrite braced_eq. cbn [app]. rewrite <- app_assoc. cbn [app].
    eapply y_ignore_s; [apply succ_just|]. apply y_map_err_with_span.
    eapply y_then_ignore_s; [exact Yl|apply succ_just].
  - (* nodes *)
    intros sp s rest es L N IH C n Hn. destruct n as [|n]; [lia|].
    change (nodes_rec (S n)) with (nodes_body (@nodes_rec Sp E n)). unfold nodes_body.
    rewrite app_length in Hn. destruct (IH C) as [_ IH2].
    destruct (IH2 n sp ltac:(lia) L) as [items [r [x [S1 S2]]]].
    eexists. apply (y_map (flat_map keep_node)). rewrite <- app_assoc.
    eapply y_separated; [exact S1|exact S2|apply closing_fq, C].
  - (* no node *)
    intros rest C. split; [apply closing_ls_stop, C|]. intros n sp _ L.
    destruct (line_spaces_complete sp rest L (closing_ls_stop _ C)) as [x X].
    exists [], (sp ++ rest), x. split; [constructor|exact X].
  - (* a node *)
    intros s sp t rest e1 e2 W Nd IHn L T IHt C.
    pose proof (m_node_start _ _ _ Nd) as [c [u [X Y]]].
    assert (~ In c ws_chars) as Wc by (rewrite X in W; exact W).
    assert (ls_stop (chars ((s ++ sp ++ t) ++ rest))) as LS.
    { rewrite chars_app, chars_app, X. apply start_ls_stop; auto. }
    split; [exact LS|]. intros n sp0 Hn L0. rewrite !app_length in Hn.
    destruct (IHt C) as [_ IHt2]. destruct (IHt2 n sp ltac:(lia) L) as [items [r [x [S1 S2]]]].
    destruct (IHn n ltac:(lia)) as [nd Ynd].
    destruct (line_spaces_complete sp0 _ L0 LS) as [y D].
    exists ((None, Spanned (span_of s) nd) :: items), r, x.
    split; [|exact S2].
    assert (s <> []) as Ne by (apply ne_chars; rewrite X; discriminate).
    rewrite <- !app_assoc in *. econstructor; [exact D| | |exact S1].
    + rewrite item_parser_eq. eapply y_then_s; [apply slashdash_none|].
      * rewrite chars_app, X. eapply hd_no_dash; [reflexivity|].
        apply (start_ls_stop c []); auto.
      * apply y_spanned; [exact Ne|exact Ynd].
    + rewrite !app_length. destruct s; [congruence|]. cbn [List.length]. lia.
  - (* a node that is commented out *)
    intros d s sp t rest e1 e2 D Nd IHn L T IHt C.
    pose proof (m_node_start _ _ _ Nd) as [c [u [X Y]]].
    assert (~ In c ws_chars) as Wc.
    { pose proof (slashdash_not_ws _ _ _ D) as W. rewrite chars_app, X in W. exact W. }
    assert (ls_stop (chars ((d ++ s ++ sp ++ t) ++ rest))) as LS.
    { destruct (slashdash_hd _ _ _ D) as [v V]. rewrite <- !app_assoc. rewrite V.
      split; [cbn; wsx|]. split; [intros [z Z]; discriminate|].
      split; [intros [z Z]; discriminate|wsx]. }
    split; [exact LS|]. intros n sp0 Hn L0. rewrite !app_length in Hn.
    destruct (IHt C) as [_ IHt2]. destruct (IHt2 n sp ltac:(lia) L) as [items [r [x [S1 S2]]]].
    destruct (IHn n ltac:(lia)) as [nd Ynd].
    destruct (line_spaces_complete sp0 _ L0 LS) as [y Dl].
    exists ((Some tt, Spanned (span_of s) nd) :: items), r, x.
    split; [|exact S2].
    assert (s <> []) as Ne by (apply ne_chars; rewrite X; discriminate).
    rewrite <- !app_assoc in *. econstructor; [exact Dl| | |exact S1].
    + rewrite item_parser_eq. eapply y_then_s; [apply slashdash_some; [exact D|]|].
      * rewrite chars_app, X. destruct (start_ls_stop c [] Y Wc) as [_ [A B]].
        apply ns_stop_start; auto.
      * apply y_spanned; [exact Ne|exact Ynd].
    + rewrite !app_length. destruct s; [congruence|]. cbn [List.length]. lia.
Qed.

Lemma document_yields s es : marred s es -> exists d, yields (document_ s) d es [].
Proof.
  intros H. destruct yields_all as [_ [_ [_ [K _]]]].
  destruct (K s [] es H (or_introl eq_refl) (S (len s)) ltac:(lia)) as [d Y].
  rewrite app_nil_r in Y. exists d. unfold document_.
  eapply y_then_ignore_s; [exact Y|apply succ_end].
Qed.

Lemma run_marred ts es : marred ts es -> es <> [] -> run (@document_ Sp E) ts = Rejected es.
Proof.
  intros H N. destruct (document_yields ts es H) as [d Y].
  eapply run_yields; [apply document_safe|exact Y|exact N].
Qed.

End Recover.

(** ** Texts *)

Lemma with_offsets_tokens p t ts : with_offsets p t ts -> ts = offset_tokens (byte_len p) t.
Proof.
  induction 1 as [|p c t ts H IH]; [reflexivity|]. cbn [offset_tokens].
  assert (byte_len (p ++ [c]) = byte_len p + utf8_len c) as X.
  { clear. induction p as [|d p IH]; cbn [app byte_len]; [lia|]. rewrite IH. lia. }
  rewrite IH, X. reflexivity.
Qed.

Lemma offset_with_offsets t : with_offsets [] t (offset_tokens 0 t).
Proof.
  assert (forall p, with_offsets p t (offset_tokens (byte_len p) t)) as H; [|exact (H [])].
  induction t as [|c t IH]; intros p; cbn [offset_tokens]; [constructor|].
  specialize (IH (p ++ [c])).
  assert (byte_len (p ++ [c]) = byte_len p + utf8_len c) as X.
  { clear. induction p as [|d p IH]; cbn [app byte_len]; [lia|]. rewrite IH. lia. }
  rewrite <- X. constructor. exact IH.
Qed.

Lemma marred_rejected t es : marred_text t es -> es <> [] -> parse_ast_span t = Rejected es.
Proof.
  intros [ts [W M]] N. apply with_offsets_tokens in W. cbn [byte_len] in W.
  destruct (parse_span_eq t) as [ts' [eoi [S ->]]]. unfold span_stream in S.
  injection S as <- <-. rewrite <- W. apply run_marred; [exact M|exact N].
Qed.

Lemma marred_line_rejected w t es : marred_text t es -> es <> [] ->
  exists es', parse_ast_linespan w t = Rejected es'
    /\ map (map_perror_span linespan_to_span) es' = es.
Proof.
  intros H N. apply marred_rejected in H; [|exact N].
  rewrite (span_independent_match w t) in H.
  destruct (parse_ast_linespan w t) as [d|errs|]; try discriminate.
  injection H as H. exists errs. auto.
Qed.
