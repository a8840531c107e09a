(** In a tidy text the errors that do not end the parse are those about identifiers
    used as arguments. *)

From Coq Require Import NArith ZArith PeanoNat List Bool String Lia ZifyBool.
From Verif Require Import Chars Ast Errors Chumsky Spans Grammar Safe GrammarSafe Near GrammarNear Kdl KdlChars KdlText
  Good LexLit EarlySpec EarlyCalc EarlyGrammar EarlyItems EarlyItem2 EarlyDoc Param Coarse CoarseGrammar.
Import ListNotations.
Local Open Scope list_scope.

Section Mild.
Context {Sp : Type} {E : env Sp}.
Notation parser := (Chumsky.parser Sp).
Notation toks := (Chumsky.toks Sp).
Notation located := (Chumsky.located Sp).
Notation len := (@List.length (tok Sp)).

Definition help (l : located) : Prop :=
  match l_err l with EMessageHelp _ _ _ _ => True | _ => False end.

Definition mild {A} (p : parser A) : Prop := forall ts, tidy (chars ts) -> Forall help (r_errs (p ts)).

(** ** What is left is a tail of the text *)

Definition tail (r ts : toks) : Prop := exists k, chars ts = k ++ chars r.

Definition gfw {A} (p : parser A) : Prop := forall ts a r alt, r_out (p ts) = Ok a r alt -> tail r ts.

Lemma tail_tidy (r ts : toks) : tail r ts -> tidy (chars ts) -> tidy (chars r).
Proof. intros [k ->]. apply tidy_suffix. Qed.

Lemma tail_trans (a b c : toks) : tail a b -> tail b c -> tail a c.
Proof. intros [k H] [l K]. exists (l ++ k). rewrite K, H. apply app_assoc. Qed.

Definition bare (ts : toks) : Chumsky.toks unit := map (fun x => (fst x, tt)) ts.

Lemma bare_rel (ts : toks) : rel_toks ts (bare ts).
Proof. induction ts as [|x ts IH]; constructor; [split; [reflexivity|exact I]|exact IH]. Qed.

Lemma bare_chars (ts : toks) : chars (bare ts) = chars ts.
Proof. unfold bare, chars. rewrite map_map. reflexivity. Qed.

Lemma rel_chars (ts : toks) (us : Chumsky.toks unit) : rel_toks ts us -> chars ts = chars us.
Proof. induction 1 as [|x y ts us [H _] _ IH]; [reflexivity|]. cbn [chars map]. f_equal; assumption. Qed.

Lemma gfw_of {A B} (RA : A -> B -> Prop) (p : parser A) (q : Chumsky.parser unit B) :
  rel_p RA p q -> fwd q -> gfw p.
Proof.
  intros R F ts a r alt O. specialize (R _ _ (bare_rel ts)). specialize (F (bare ts)).
  destruct (p ts) as [es o c]. cbn [r_out] in O. subst o.
  destruct (q (bare ts)) as [es' o' c']. cbn [r_out] in F. inversion R as [? ? ? ? ? ? _ RO]. subst.
  inversion RO as [? b ? r' ? alt' _ Rr _|]. subst. destruct F as [k F].
  exists (chars k). rewrite (rel_chars _ _ Rr), <- (bare_chars ts), F. unfold chars. apply map_app.
Qed.

Lemma gfw_map {A B} (f : A -> B) p : gfw p -> gfw (p_map f p).
Proof.
  intros H ts a r alt. unfold p_map. cbn [r_out]. destruct (r_out (p ts)) as [b r' alt'|e] eqn:O; [|discriminate].
  intros X. inversion X. subst. exact (H _ _ _ _ O).
Qed.

Lemma gfw_map_with_span {A B} (f : A -> Sp -> B) p : gfw p -> gfw (p_map_with_span f p).
Proof.
  intros H ts a r alt. unfold p_map_with_span. cbn [r_out].
  destruct (r_out (p ts)) as [b r' alt'|e] eqn:O; [|discriminate].
  intros X. inversion X. subst. exact (H _ _ _ _ O).
Qed.

Lemma gfw_bind {A B} (p : parser A) (k : A -> parser B) : gfw p -> (forall a, gfw (k a)) -> gfw (p_bind p k).
Proof.
  intros H K ts [a b] r alt. unfold p_bind. destruct (r_out (p ts)) as [x r' alt'|e] eqn:O; [|discriminate].
  destruct (r_out (k x r')) as [y r2 alt2|e] eqn:O2.
  - destruct (merge_alts alt' alt2). cbn [r_out]. intros X. inversion X. subst.
    exact (tail_trans _ _ _ (K _ _ _ _ _ O2) (H _ _ _ _ O)).
  - destruct (lmax_opt e alt'). discriminate.
Qed.
Lemma gfw_then {A B} (p : parser A) (k : parser B) : gfw p -> gfw k -> gfw (p_then p k).
Proof. intros H K. apply gfw_bind; auto. Qed.
Lemma gfw_ignore_then {A B} (p : parser A) (k : parser B) : gfw p -> gfw k -> gfw (p_ignore_then p k).
Proof. intros H K. apply gfw_map, gfw_then; auto. Qed.

Lemma mild_quiet {A} (p : parser A) : quiet p -> mild p.
Proof. intros Q ts _. rewrite Q. constructor. Qed.

Lemma mild_map {A B} (f : A -> B) p : mild p -> mild (p_map f p).
Proof. intros H ts T. exact (H ts T). Qed.
Lemma mild_map_with_span {A B} (f : A -> Sp -> B) p : mild p -> mild (p_map_with_span f p).
Proof. intros H ts T. exact (H ts T). Qed.
Lemma mild_spanned {A} (p : parser A) : mild p -> mild (p_spanned p).
Proof. apply mild_map_with_span. Qed.
Lemma mild_try_map {A B} (f : A -> Sp -> B + perror Sp) p : mild p -> mild (p_try_map f p).
Proof. intros H ts T. exact (H ts T). Qed.

Lemma mild_map_err_with_span {A} f (p : parser A) : mild p -> mild (p_map_err_with_span f p).
Proof.
  intros H ts T. specialize (H ts T). unfold p_map_err_with_span. destruct (r_out (p ts)); [exact H|].
  destruct (f _ _); exact H.
Qed.

Lemma mild_bind {A B} (p : parser A) (k : A -> parser B) : gfw p -> mild p -> (forall a, mild (k a)) -> mild (p_bind p k).
Proof.
  intros F P K ts T. assert (H := P ts T). unfold p_bind. destruct (r_out (p ts)) as [a r alt|e] eqn:O; [|exact H].
  assert (Tr := tail_tidy _ _ (F _ _ _ _ O) T). specialize (K a r Tr).
  destruct (r_out (k a r)) as [b r2 alt2|e]; [destruct (merge_alts alt alt2)|destruct (lmax_opt e alt)]; cbn [r_errs];
    apply Forall_app; auto.
Qed.
Lemma mild_then {A B} (p : parser A) (k : parser B) : gfw p -> mild p -> mild k -> mild (p_then p k).
Proof. intros F P K. apply mild_bind; auto. Qed.
Lemma mild_ignore_then {A B} (p : parser A) (k : parser B) : gfw p -> mild p -> mild k -> mild (p_ignore_then p k).
Proof. intros F P K. apply mild_map, mild_then; auto. Qed.
Lemma mild_then_ignore {A B} (p : parser A) (k : parser B) : gfw p -> mild p -> mild k -> mild (p_then_ignore p k).
Proof. intros F P K. apply mild_map, mild_then; auto. Qed.
Lemma mild_delimited {A B C} (p : parser A) (o : parser B) (c : parser C) :
  gfw o -> gfw p -> mild p -> mild o -> mild c -> mild (p_delimited p o c).
Proof.
  intros Fo Fp P O K. apply mild_then_ignore; [apply gfw_map, gfw_bind; auto| |exact K]. apply mild_ignore_then; auto.
Qed.

Lemma mild_or_not {A} (p : parser A) : mild p -> mild (p_or_not p).
Proof.
  intros H ts T. specialize (H ts T). unfold p_or_not. destruct (r_out (p ts)); [exact H|constructor].
Qed.

Lemma with_alt_errs {A} (r r' : presult Sp A) : r_errs (with_alt r r') = r_errs r.
Proof. unfold with_alt. destruct (r_out r); [|reflexivity]. destruct (merge_alts _ _). reflexivity. Qed.

Lemma or_errs {A} (p k : parser A) ts : r_errs (p_or p k ts) = r_errs (p ts) \/ r_errs (p_or p k ts) = r_errs (k ts).
Proof.
  unfold p_or. destruct (p ts) as [ea oa ca], (k ts) as [eb ob cb]. cbn [r_errs r_out r_crash].
  assert (forall o : presult Sp A, (match ea with [] => match oa with Ok _ _ _ => Res ea oa ca | Err _ => o end | _ => o end) = Res ea oa ca
    \/ (match ea with [] => match oa with Ok _ _ _ => Res ea oa ca | Err _ => o end | _ => o end) = o) as H.
  { intros o. destruct ea; [destruct oa|]; auto. }
  match goal with |- context [match ea with [] => match oa with Ok _ _ _ => _ | Err _ => ?o end | _ => _ end] =>
    destruct (H o) as [-> | ->]; [left; reflexivity|] end.
  destruct oa as [a ra alta|erra], ob as [b rb altb|errb]; cbn [add_crash r_errs]; rewrite ?with_alt_errs; auto;
    repeat match goal with
    | |- context [match ?c with Eq => _ | Lt => _ | Gt => _ end] => destruct c
    | |- context [let '(_, _) := ?c in _] => destruct c
    end; cbn [add_crash r_errs]; rewrite ?with_alt_errs; auto.
Qed.

Lemma mild_or {A} (p k : parser A) : mild p -> mild k -> mild (p_or p k).
Proof. intros P K ts T. destruct (or_errs p k ts) as [-> | ->]; auto. Qed.

Lemma mild_choice {A} (ps : list (parser A)) : Forall mild ps -> mild (p_choice ps).
Proof.
  intros H ts T. unfold p_choice. generalize (@None located). induction H as [|p ps P _ IH]; intros alt; cbn [p_choice_from].
  - destruct alt; constructor.
  - destruct (r_out (p ts)); [apply P, T|]. destruct (merge_alts alt (Some e)). cbn [add_crash r_errs]. apply IH.
Qed.

Lemma mild_validate {A B} (f : A -> Sp -> B * option (perror Sp)) p :
  (forall a sp e, snd (f a sp) = Some e -> help (Located 0 e)) -> mild p -> mild (p_validate f p).
Proof.
  intros F P ts T. specialize (P ts T). unfold p_validate. destruct (r_out (p ts)) as [a r alt|e]; [|exact P].
  specialize (F a (span_since ts (len r))). destruct (f a (span_since ts (len r))) as [b o]. cbn [snd r_errs] in *. apply Forall_app. split; [exact P|].
  destruct o as [e|]; constructor; [|constructor]. exact (F e eq_refl).
Qed.

Lemma mild_repeat_loop {A} (p : parser A) al am : gfw p -> mild p -> forall fuel errs outs alt old cr ts,
  tidy (chars ts) -> Forall help errs -> Forall help (r_errs (repeat_loop fuel p al am errs outs alt old cr ts)).
Proof.
  intros F P. induction fuel as [|fuel IH]; intros errs outs alt old cr ts T H; cbn [repeat_loop]; [exact H|].
  destruct (match am with Some m => m <=? List.length outs | None => false end); [exact H|].
  assert (X := P ts T). destruct (r_out (p ts)) as [a r al'|e] eqn:O.
  - destruct (merge_alts alt al'). destruct (match old with Some o0 => o0 =? len r | None => false end).
    + cbn [r_errs]. apply Forall_app. auto.
    + apply IH; [exact (tail_tidy _ _ (F _ _ _ _ O) T)|apply Forall_app; auto].
  - destruct (List.length outs <? al); [cbn [r_errs]; apply Forall_app; auto|]. destruct (merge_alts alt (Some e)). exact H.
Qed.

Lemma mild_repeated {A} (p : parser A) : gfw p -> mild p -> mild (p_repeated p).
Proof. intros F P ts T. apply mild_repeat_loop; auto. Qed.

Lemma mild_sep_loop {A B} (i : parser A) (d : parser B) : gfw i -> gfw d -> mild i -> mild d ->
  forall fuel errs outs alt cr ts errs1 outs1 alt1 ts1 err1 cr1, tidy (chars ts) -> Forall help errs ->
  sep_loop fuel i d errs outs alt cr ts = (errs1, outs1, alt1, ts1, err1, cr1) -> Forall help errs1.
Proof.
  intros Fi Fd Mi Md. induction fuel as [|fuel IH]; intros errs outs alt cr ts errs1 outs1 alt1 ts1 err1 cr1 T H;
    cbn [sep_loop]; [intros X; inversion X; subst; exact H|].
  assert (Hd := Md ts T). destruct (r_out (d ts)) as [b r al|e] eqn:O;
    [|intros X; inversion X; subst; apply Forall_app; auto].
  destruct (merge_alts alt al) as [alt2 c2]. assert (Tr := tail_tidy _ _ (Fd _ _ _ _ O) T).
  assert (Hi := Mi r Tr). assert (Forall help (errs ++ r_errs (d ts) ++ r_errs (i r))) as H2 by (apply Forall_app; split; [exact H|apply Forall_app; auto]).
  destruct (r_out (i r)) as [a r2 al2|e] eqn:O2; [|intros X; inversion X; subst; exact H2].
  destruct (merge_alts alt2 al2) as [alt3 c3]. apply IH; [exact (tail_tidy _ _ (Fi _ _ _ _ O2) Tr)|exact H2].
Qed.

Lemma sep_or_not_gfw {B} (d : parser B) : gfw d -> forall alt ts alt1 r c, sep_or_not d alt ts = (alt1, r, c) -> tail r ts.
Proof.
  intros F alt ts alt1 r c. unfold sep_or_not. specialize (F ts).
  destruct (r_out (d ts)) as [b r' al|e]; destruct (merge_alts_list _ _) as [m1 c1]; destruct (merge_alts alt m1);
    intros X; inversion X; subst; [exact (F _ _ _ eq_refl)|exists []; reflexivity].
Qed.

Lemma mild_separated {A B} (i : parser A) (d : parser B) : gfw i -> gfw d -> mild i -> mild d -> mild (p_separated i d).
Proof.
  intros Fi Fd Mi Md ts T. unfold p_separated. destruct (sep_or_not d None ts) as [[alt0 ts0] c0] eqn:S0.
  assert (T0 := tail_tidy _ _ (sep_or_not_gfw d Fd _ _ _ _ _ S0) T). assert (H := Mi ts0 T0).
  destruct (r_out (i ts0)) as [a r al|e] eqn:O; [|destruct (merge_alts alt0 (Some e)); exact H].
  destruct (merge_alts alt0 al) as [alt1 c1].
  destruct (sep_loop _ _ _ _ _ _ _ _) as [[[[[errs outs] alt2] ts2] err] c2] eqn:L.
  destruct (sep_or_not d alt2 ts2) as [[alt3 ts3] c3]. destruct (merge_alts alt3 err) as [alt4 c4]. cbn [r_errs].
  exact (mild_sep_loop i d Fi Fd Mi Md _ _ _ _ _ _ _ _ _ _ _ _ (tail_tidy _ _ (Fi _ _ _ _ O) T0) H L).
Qed.

(** ** The grammar *)

Local Existing Instance unit_env.

Lemma g_just x : gfw (p_just x).
Proof. exact (gfw_of eq _ _ (rel_just x) (proj1 (D_just x))). Qed.
Lemma g_ident : gfw ident.
Proof. exact (gfw_of eq _ _ rel_ident (proj1 D_ident)). Qed.
Lemma g_type_name : gfw type_name.
Proof. exact (gfw_of eq _ _ rel_type_name (proj1 D_type_name)). Qed.
Lemma g_literal : gfw literal_.
Proof. exact (gfw_of eq _ _ rel_literal (proj1 D_literal)). Qed.
Lemma g_bare_ident : gfw bare_ident.
Proof. exact (gfw_of eq _ _ rel_bare_ident (proj1 D_bare_ident)). Qed.
Lemma g_spaces : gfw (p_repeated node_space).
Proof.
  refine (gfw_of _ _ _ (rel_repeated eq _ _ rel_node_space) _). assert (D (p_repeated node_space)) as H by ds. apply H.
Qed.
Lemma g_gap : gfw (p_repeat 1 None node_space).
Proof.
  refine (gfw_of _ _ _ (rel_repeat eq 1 None _ _ rel_node_space) _). assert (D (p_repeat 1 None node_space)) as H by ds. apply H.
Qed.
Lemma g_lines : gfw (p_repeated line_space).
Proof.
  refine (gfw_of _ _ _ (rel_repeated eq _ _ rel_line_space) _). assert (D (p_repeated line_space)) as H by ds. apply H.
Qed.
Lemma g_begin c : gfw (begin_comment c).
Proof. exact (gfw_of eq _ _ (rel_begin_comment c) (proj1 (D_begin_comment c))). Qed.
Lemma g_slashdash : gfw slashdash.
Proof. exact (gfw_of eq _ _ rel_slashdash (proj1 D_slashdash)). Qed.
Lemma g_prop_or_arg : gfw prop_or_arg.
Proof. exact (gfw_of _ _ _ rel_prop_or_arg (proj1 D_prop_or_arg)). Qed.
Lemma g_items : gfw node_items.
Proof. exact (gfw_of _ _ _ rel_node_items (proj1 D_node_items)). Qed.
Lemma rel_rec n : rel_p rel_doc (@nodes_rec Sp E n) (@nodes_rec unit unit_env n).
Proof.
  induction n as [|n IH]; cbn [nodes_rec].
  - intros ts ts' T. constructor; constructor. apply unexpected_rel. exact T.
  - apply rel_nodes_body. exact IH.
Qed.
Lemma g_rec n : gfw (nodes_rec n).
Proof. exact (gfw_of _ _ _ (rel_rec n) (proj1 (D_rec n))). Qed.
Lemma g_children n : gfw (opt_children (nodes_rec n)).
Proof. exact (gfw_of _ _ _ (rel_opt_children _ _ (rel_rec n)) (proj1 (D_opt_children _ (D_rec n)))). Qed.
Lemma g_node n : gfw (node_ (nodes_rec n)).
Proof. exact (gfw_of _ _ _ (rel_node_p _ _ (rel_rec n)) (proj1 (D_node _ (D_rec n)))). Qed.
Lemma g_escape : gfw (p_ignore_then (p_just 0x5C%N) esc_char).
Proof.
  refine (gfw_of eq _ _ (rel_ignore_then _ _ _ _ _ _ (rel_just _) rel_esc_char) (proj1 D_escape)).
Qed.
Lemma g_string_char : gfw (p_or (p_filter (fun c => negb (c =? 0x22) && negb (c =? 0x5C))%N) (p_ignore_then (p_just 0x5C%N) esc_char)).
Proof.
  refine (gfw_of eq _ _ (rel_or _ _ _ _ _ (rel_filter _) (rel_ignore_then _ _ _ _ _ _ (rel_just _) rel_esc_char)) _).
  assert (D (p_or (p_filter (fun c => negb (c =? 0x22) && negb (c =? 0x5C))%N) (p_ignore_then (p_just 0x5C%N) esc_char))) as H
    by (apply D_or_quiet; [quiets|ds|apply D_escape]).
  apply H.
Qed.
Lemma g_string_chars : gfw (p_repeated (p_or (p_filter (fun c => negb (c =? 0x22) && negb (c =? 0x5C))%N) (p_ignore_then (p_just 0x5C%N) esc_char))).
Proof.
  refine (gfw_of _ _ _ (rel_repeated _ _ _ (rel_or _ _ _ _ _ (rel_filter _) (rel_ignore_then _ _ _ _ _ _ (rel_just _) rel_esc_char))) _).
  assert (D (p_repeated (p_or (p_filter (fun c => negb (c =? 0x22) && negb (c =? 0x5C))%N) (p_ignore_then (p_just 0x5C%N) esc_char)))) as H.
  { apply D_repeated; [apply D_or_quiet; [quiets|ds|apply D_escape]|]. apply eats_or; [apply eats_filter|].
    apply (eats_ignore_then 1 0); [apply eats_just|apply eats_esc_char]. }
  apply H.
Qed.


Lemma mild_escape : mild (p_ignore_then (p_just 0x5C%N) esc_char).
Proof.
  intros ts T. destruct ts as [|x ts]; [constructor|].
  unfold p_ignore_then, p_map, p_then, p_bind. cbn [r_errs]. destruct x as [c s]. cbn [p_just].
  destruct (N.eqb_spec c 0x5C%N) as [X|X]; [|constructor]. cbn [r_out].
  assert (r_errs (esc_char ts) = []) as H.
  { destruct ts as [|[c2 s2] ts]; [reflexivity|].
    destruct (N.eq_dec c2 0x75%N) as [Y|Y].
    - destruct T as (_ & _ & T & _). destruct (T [] (chars ts)) as (e & v & r & Es & Eq).
      { rewrite <- X, <- Y. reflexivity. }
      assert (chars (bare (((c2, s2) : tok Sp) :: ts)) = e ++ r) as E2 by (rewrite bare_chars, <- Eq, <- Y; reflexivity).
      apply chars_starts in E2. destruct E2 as (u & w & E2 & <- & <-).
      destruct (esc_char_complete u v w Es) as (Z & _). rewrite <- E2 in Z.
      assert (R := rel_esc_char _ _ (bare_rel (((c2, s2) : tok Sp) :: ts))). revert R Z.
      generalize (@esc_char Sp E (((c2, s2) : tok Sp) :: ts)). generalize (@esc_char unit unit_env (bare (((c2, s2) : tok Sp) :: ts))).
      intros x1 x2 R Z. destruct R as [es es' o o' cr cr' R _]. cbn [r_errs] in *. subst es'. inversion R. reflexivity.
    - match goal with |- r_errs (esc_char ?z) = [] => destruct (or_errs (p_filter_map esc_simple) (p_ignore_then (p_just 0x75%N)
        (p_recover_skip_until esc_stop 0%N (p_try_map esc_code (p_delimited (p_repeat 1 (Some 6) (p_filter_map esc_hex)) (p_just 0x7B%N) (p_just 0x7D%N))))) z) as [H|H] end.
      + unfold esc_char. rewrite H. apply quiet_filter_map.
      + unfold esc_char. rewrite H. unfold p_ignore_then, p_map, p_then, p_bind. cbn [r_errs p_just].
        apply N.eqb_neq in Y. rewrite Y. reflexivity. }
  destruct (r_out (esc_char ts)) as [b r2 alt2|e]; [destruct (merge_alts None alt2)|destruct (lmax_opt e None)]; cbn [r_errs];
    rewrite H; constructor.
Qed.

Lemma mild_escaped_string : mild escaped_string.
Proof.
  unfold escaped_string. apply mild_ignore_then; [apply g_just|apply mild_quiet, quiet_just|].
  apply mild_map_err_with_span, mild_then_ignore; [| |apply mild_quiet, quiet_just].
  - apply g_string_chars.
  - apply mild_repeated; [apply g_string_char|].
    apply mild_or; [apply mild_quiet, quiet_filter|apply mild_escape].
Qed.

Lemma mild_string : mild string_.
Proof. unfold string_. apply mild_or; [apply mild_quiet, quiet_raw_string|apply mild_escaped_string]. Qed.

Lemma mild_literal : mild literal_.
Proof.
  unfold literal_. apply mild_choice. foralls.
  - apply mild_map, mild_string.
  - apply mild_quiet, quiet_keyword.
  - apply mild_quiet, quiet_number.
Qed.

Lemma mild_ident : mild ident.
Proof.
  unfold ident. apply mild_try_map, mild_choice. foralls.
  - apply mild_map, mild_quiet, quiet_number.
  - apply mild_map, mild_quiet, quiet_bare_ident.
  - apply mild_map, mild_string.
Qed.

Lemma mild_type_name : mild type_name.
Proof.
  unfold type_name. apply mild_map, mild_delimited; [apply g_just|apply g_ident|apply mild_ident| |];
    apply mild_quiet, quiet_just.
Qed.

Local Opaque literal_ string_ number keyword bare_ident ident type_name node_space node_terminator line_space.

Lemma mild_type_name_value : mild type_name_value.
Proof.
  unfold type_name_value. apply mild_map, mild_then; [apply gfw_map_with_span, g_type_name| |];
    apply mild_spanned; [apply mild_type_name|apply mild_literal].
Qed.

Lemma mild_value : mild value_.
Proof. unfold value_. apply mild_or; [apply mild_type_name_value|]. apply mild_map, mild_spanned, mild_literal. Qed.

Lemma mild_opt_value : mild opt_value.
Proof. unfold opt_value. apply mild_or_not, mild_ignore_then; [apply g_just|apply mild_quiet, quiet_just|apply mild_value]. Qed.

Lemma mild_inner : mild prop_or_arg_inner.
Proof.
  unfold prop_or_arg_inner. apply mild_choice. foralls.
  - apply mild_try_map, mild_then; [apply gfw_map_with_span, g_literal|apply mild_spanned, mild_literal|apply mild_opt_value].
  - apply mild_map, mild_validate.
    + intros a sp e. unfold ident_item_check. cbn [snd]. destruct (snd a); [discriminate|]. intros X. inversion X. exact I.
    + apply mild_then; [apply gfw_map_with_span, g_bare_ident|apply mild_spanned, mild_quiet, quiet_bare_ident|apply mild_opt_value].
  - apply mild_map, mild_type_name_value.
Qed.

Lemma mild_spaces : mild (p_repeated node_space).
Proof. apply mild_quiet, quiet_repeated, quiet_node_space. Qed.

Lemma mild_prop_or_arg : mild prop_or_arg.
Proof.
  unfold prop_or_arg. apply mild_or; [|apply mild_inner]. apply mild_map, mild_ignore_then; [| |apply mild_inner].
  - apply gfw_ignore_then; [apply g_begin|apply g_spaces].
  - apply mild_quiet, quiet_ignore_then; [apply quiet_begin_comment|apply quiet_repeated, quiet_node_space].
Qed.

Lemma mild_slashdash : mild slashdash.
Proof.
  unfold slashdash. apply mild_quiet, quiet_or_not, quiet_then_ignore; [apply quiet_begin_comment|apply quiet_repeated, quiet_node_space].
Qed.

Lemma mild_items : mild node_items.
Proof.
  unfold node_items. apply mild_repeated; [apply gfw_ignore_then; [apply g_gap|apply g_prop_or_arg]|].
  apply mild_ignore_then; [apply g_gap|apply mild_quiet, quiet_repeat, quiet_node_space|apply mild_prop_or_arg].
Qed.

Lemma mild_children n : mild (nodes_rec n) -> mild (opt_children (nodes_rec n)).
Proof.
  intros M. unfold opt_children. apply mild_or_not, mild_then.
  - apply gfw_ignore_then; [apply g_spaces|apply g_slashdash].
  - apply mild_ignore_then; [apply g_spaces|apply mild_spaces|apply mild_slashdash].
  - unfold braced_nodes. apply mild_spanned, mild_ignore_then; [apply g_just|apply mild_quiet, quiet_just|].
    apply mild_map_err_with_span, mild_then_ignore; [apply g_rec|exact M|apply mild_quiet, quiet_just].
Qed.

Lemma g_or_not_type : gfw (p_or_not (p_spanned type_name)).
Proof.
  refine (gfw_of _ _ _ (rel_or_not _ _ _ (rel_spanned _ _ _ rel_type_name)) _).
  assert (D (p_or_not (p_spanned type_name))) as H by (apply D_or_not, D_spanned, D_type_name). apply H.
Qed.

Lemma mild_node n : mild (nodes_rec n) -> mild (node_ (nodes_rec n)).
Proof.
  intros M. unfold node_.
  assert (gfw (p_then (p_or_not (p_spanned type_name)) (p_spanned ident))) as D1
    by (apply gfw_then; [apply g_or_not_type|apply gfw_map_with_span, g_ident]).
  assert (gfw (p_then (p_then (p_or_not (p_spanned type_name)) (p_spanned ident)) node_items)) as D2
    by (apply gfw_then; [exact D1|apply g_items]).
  apply mild_map, mild_then_ignore.
  - apply gfw_then; [exact D2|apply g_children].
  - apply mild_then; [exact D2| |apply mild_children; assumption].
    apply mild_then; [exact D1| |apply mild_items].
    apply mild_then; [apply g_or_not_type|apply mild_or_not, mild_spanned, mild_type_name|apply mild_spanned, mild_ident].
  - apply mild_quiet, quiet_then; [apply quiet_repeated, quiet_node_space|apply quiet_node_terminator].
Qed.

Lemma mild_rec n : mild (nodes_rec n).
Proof.
  induction n as [|n IH]; [intros ts _; constructor|]. cbn [nodes_rec]. unfold nodes_body.
  apply mild_map, mild_separated; [|apply g_lines| |apply mild_quiet, quiet_repeated, quiet_line_space].
  - apply gfw_then; [apply g_slashdash|apply gfw_map_with_span, g_node].
  - apply mild_then; [apply g_slashdash|apply mild_slashdash|]. apply mild_spanned, mild_node, IH.
Qed.

Lemma g_nodes : gfw nodes.
Proof. intros ts a r alt. apply g_rec. Qed.

Lemma mild_document : mild document_.
Proof.
  unfold document_. apply mild_then_ignore; [apply g_nodes| |apply mild_quiet, quiet_end].
  intros ts T. exact (mild_rec _ ts T).
Qed.

End Mild.
