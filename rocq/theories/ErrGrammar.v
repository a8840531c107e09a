(** Where the errors of the parsers of src/grammar.rs lie. *)

From Coq Require Import NArith PeanoNat List Bool String Lia.
From Verif Require Import Chars Ast Errors Chumsky Spans Grammar Safe GrammarSafe Kdl KdlChars Good GrammarNear LexLit LexIdent LexSpace NodesComplete SpanProps
  ErrSpec TokenSet ErrAt.
Import ListNotations.
Local Open Scope list_scope.

Section ErrGrammar.
Variable t : text.

#[local] Hint Extern 0 (env span) => exact (ErrAt.E t) : typeclass_instances.

Notation okp := (okp t).
Notation gl := (gl t).
Notation right := (error_right t).

Definition full {A} : text -> A -> Prop := fun m _ => m <> [].

Lemma ok_eats {A} C (Q : text -> A -> Prop) p : okp C Q p -> eats 1 p ->
  okp C (fun m a => m <> [] /\ Q m a) p.
Proof.
  intros P X pre q T H. destruct (P pre q T H) as [H1 H2]. split; [exact H1|].
  specialize (X (toks_at pre q)).
  destruct (r_out (p (toks_at pre q))) as [a rest alt|e]; [|exact H2].
  destruct H2 as [m [q' [Y [-> [Z W]]]]]. exists m, q'. repeat split; auto.
  specialize (X _ _ _ eq_refl). rewrite !toks_len in X. intros ->. cbn [app] in Y. subst q. lia.
Qed.

Lemma ok_full {A} C (p : parser span A) : okp C anyq p -> eats 1 p -> okp C full p.
Proof.
  intros P X. eapply ok_weaken; [| |apply (ok_eats C anyq p P X)]; [auto|]. intros m a [H _]. exact H.
Qed.

(** What is known of a good parse holds of every parse, for a parser without
    soft errors. *)
Lemma chars_toks pre q : chars (toks_at pre q) = q.
Proof.
  unfold toks_at. generalize (byte_len pre). induction q as [|c q IH]; intros n; [reflexivity|].
  cbn [offset_tokens chars map fst]. f_equal. apply IH.
Qed.

Lemma ok_sound {A} C (R : text -> A -> Prop) (p : parser span A) : okp C anyq p ->
  quiet p -> Safe p ->
  (forall ts a rest, good (p ts) a rest -> exists s, ts = s ++ rest /\ R (chars s) a) ->
  okp C R p.
Proof.
  intros P Qt Sf G pre q T H. destruct (P pre q T H) as [H1 H2]. split; [exact H1|].
  destruct (r_out (p (toks_at pre q))) as [a rest alt|e] eqn:O; [|exact H2].
  destruct H2 as (m & q' & X & Y & Z & _). exists m, q'. repeat split; auto.
  destruct (G (toks_at pre q) a rest) as (s & S1 & S2).
  { split; [split; [apply Qt|eauto]|]. exact (proj1 (Sf _ (toks_at pre q) (le_n _))). }
  subst q rest. rewrite toks_app in S1. apply app_inv_tail in S1. subst s. rewrite chars_toks in S2. exact S2.
Qed.

Lemma right_no_expected e : right e -> right (with_no_expected e).
Proof. destruct e; try exact (fun H => H). intros (H & _ & L). split; [exact H|split; [apply tidy_nil|exact L]]. Qed.
Lemma eoi_no_expected (e : perror span) : is_eoi_error (with_no_expected e) = true -> is_eoi_error e = true.
Proof. destruct e; exact (fun H => H). Qed.
Lemma right_expected_kind k e : nameable (TKind k) -> right e -> right (with_expected_kind k e).
Proof.
  intros N. destruct e; try exact (fun H => H). intros (H & _ & L). split; [exact H|split; [apply tidy_one, N|exact L]].
Qed.
Lemma eoi_expected_kind k (e : perror span) : is_eoi_error (with_expected_kind k e) = true -> is_eoi_error e = true.
Proof. destruct e; exact (fun H => H). Qed.
Lemma right_expected_token k e : nameable (TToken k) -> right e -> right (with_expected_token k e).
Proof.
  intros N. destruct e; try exact (fun H => H). intros (H & _ & L). split; [exact H|split; [apply tidy_one, N|exact L]].
Qed.
Lemma eoi_expected_token k (e : perror span) : is_eoi_error (with_expected_token k e) = true -> is_eoi_error e = true.
Proof. destruct e; exact (fun H => H). Qed.

Lemma ok_filter_any C f : okp C anyq (p_filter f).
Proof. eapply ok_drop, ok_filter. Qed.
Lemma ok_just_any C x : okp C anyq (p_just x).
Proof. eapply ok_drop, ok_just. Qed.
Lemma ok_just_str_any C x : okp C anyq (p_just_str x).
Proof. eapply ok_drop, ok_just_str. Qed.

Ltac named := cbn; tauto.
Ltac tidied := first [apply tidy_one; named
                     |apply tidy_extend; [apply tidy_nil|repeat (constructor; [named|]); constructor]].

Create HintDb okd.

Ltac foralls := repeat first [apply Forall_nil | apply Forall_cons].
Ltac ok1 :=
  first
  [ assumption
  | solve [auto with okd nocore]
  | lazymatch goal with
    | |- ErrAt.okp _ _ _ ?p =>
      lazymatch p with
      | p_filter _ => apply ok_filter_any
      | p_none_of _ => apply ok_none_of
      | p_just _ => apply ok_just_any
      | p_just_str _ => apply ok_just_str_any
      | p_end => apply ok_end
      | p_map _ _ => apply ok_map_any
      | p_ignored _ => apply ok_ignored
      | p_ignore_then _ _ => apply ok_ignore_then
      | p_then_ignore _ _ => apply ok_then_ignore
      | p_delimited _ _ _ => apply ok_delimited
      | p_then _ _ => apply ok_then_any
      | p_or _ _ => apply ok_or
      | p_choice _ => apply ok_choice; foralls
      | p_or_not _ => apply ok_or_not
      | p_repeat _ _ _ => apply ok_repeat_any
      | p_repeated _ => apply ok_repeat_any
      | p_take_until _ => apply ok_take_until
      | p_rewind _ => apply ok_rewind
      | p_spanned _ => apply ok_map_with_span_any
      | p_separated _ _ => apply ok_separated
      | p_map_err with_no_expected _ => apply ok_map_err; [apply right_no_expected|apply eoi_no_expected|]
      | p_map_err (with_expected_kind _) _ => apply ok_map_err; [intros ?; apply right_expected_kind; named|apply eoi_expected_kind|]
      | p_map_err (with_expected_token _) _ => apply ok_map_err; [intros ?; apply right_expected_token; named|apply eoi_expected_token|]
      end
    end ].
Ltac ok := repeat ok1.

Lemma ok_begin_comment C c : okp C anyq (begin_comment c).
Proof. unfold begin_comment. ok. Qed.
Hint Resolve ok_begin_comment : okd.

Lemma ok_newline C : okp C anyq newline.
Proof. unfold newline. ok. Qed.
Hint Resolve ok_newline : okd.

Lemma ok_ws_char C : okp C anyq ws_char.
Proof. unfold ws_char. ok. Qed.
Hint Resolve ok_ws_char : okd.

Lemma ok_id_char C : okp C (fun m c => m = [c]) id_char.
Proof.
  apply ok_map_err; [intros ?; apply right_expected_kind; named|apply eoi_expected_kind|].
  eapply ok_weaken; [| |apply (ok_filter t anyc)]; [unfold anyc; auto|]. intros m a H. apply H.
Qed.
Lemma ok_id_sans_dig C : okp C (fun m c => m = [c]) id_sans_dig.
Proof.
  apply ok_map_err; [intros ?; apply right_expected_kind; named|apply eoi_expected_kind|].
  eapply ok_weaken; [| |apply (ok_filter t anyc)]; [unfold anyc; auto|]. intros m a H. apply H.
Qed.
Lemma ok_id_sans_sign_dig C : okp C (fun m c => m = [c]) id_sans_sign_dig.
Proof.
  apply ok_map_err; [intros ?; apply right_expected_kind; named|apply eoi_expected_kind|].
  eapply ok_weaken; [| |apply (ok_filter t anyc)]; [unfold anyc; auto|]. intros m a H. apply H.
Qed.

(** ** Unclosed things *)

Lemma end_at pre q rem : t = pre ++ q -> rem = 0 ->
  sp_at_end (span_since (toks_at pre q) rem) = end_of t.
Proof.
  intros T ->. rewrite (since_eq t pre q 0 T), passed_zero.
  change (end_of (pre ++ q) = end_of t). rewrite <- T. reflexivity.
Qed.

Lemma before_at pre0 o q rem : t = (pre0 ++ o) ++ q ->
  between t (sp_before_start (byte_len o) (span_since (toks_at (pre0 ++ o) q) rem)) pre0 o q.
Proof.
  intros T. rewrite (since_eq t _ q rem T). split; [rewrite app_assoc; exact T|].
  cbn [sp_before_start span_env sp_start ErrAt.E]. rewrite byte_len_app. f_equal. lia.
Qed.

Lemma start_at pre o q rem : t = pre ++ o ++ q ->
  between t (sp_at_start (byte_len o) (span_since (toks_at pre (o ++ q)) rem)) pre o q.
Proof.
  intros T. rewrite (since_eq t pre (o ++ q) rem T). split; [exact T|].
  cbn [sp_at_start span_env sp_start ErrAt.E]. rewrite byte_len_app. reflexivity.
Qed.

Lemma unclosed_ok pre q e what open p o close c at_open e' q' :
  t = pre ++ q -> gl q e -> is_eoi_error (l_err e) = true ->
  delimiters what open o close c -> between t at_open p o q' -> ~ closed_by t open (p ++ o) q' ->
  merge (l_err e) (EUnclosed what at_open open
                     (sp_at_end (span_since (toks_at pre q) (l_rem e))) close TEoi) = Some e' ->
  right e' /\ (is_eoi_error e' = true -> l_rem e = 0).
Proof.
  intros T G Z D O N M. destruct G as [_ [G2 G3]]. specialize (G2 Z).
  rewrite (end_at pre q _ T G2) in M.
  assert (right (EUnclosed what at_open open (end_of t) close TEoi)) as R.
  { cbn. split; [|auto]. exists p, o, c, q'. auto. }
  destruct (merge_right t _ _ _ M G3 R) as [H1 H2]. auto.
Qed.

(** The closing delimiter of a raw string, where it comes first. *)
Lemma prefix_dec (a b : text) : {prefix a b} + {~ prefix a b}.
Proof.
  revert b. induction a as [|x a IH]; intros b; [left; exists b; reflexivity|].
  destruct b as [|y b]; [right; intros [r X]; discriminate|].
  destruct (N.eq_dec x y) as [->|N]; [|right; intros [r X]; injection X as X _; congruence].
  destruct (IH b) as [P|P].
  - left. destruct P as [r ->]. exists r. reflexivity.
  - right. intros [r X]. injection X as X. apply P. exists r. exact X.
Qed.

Lemma first_of (d : text) s q : exists a b, s ++ d ++ q = a ++ d ++ b
  /\ forall a1 a2, a = a1 ++ a2 -> a2 <> [] -> ~ prefix d (a2 ++ d ++ b).
Proof.
  induction s as [|c s IH].
  - exists [], q. split; [reflexivity|]. intros a1 a2 X N. symmetry in X. apply app_eq_nil in X. tauto.
  - destruct (prefix_dec d ((c :: s) ++ d ++ q)) as [[r P]|P].
    + exists [], r. split; [exact P|]. intros a1 a2 X N. symmetry in X. apply app_eq_nil in X. tauto.
    + destruct IH as (a & b & X & F). exists (c :: a), b. cbn [app] in *. rewrite X in *.
      split; [reflexivity|]. intros [|y a1] a2 Y N; cbn [app] in Y; [subst a2; exact P|].
      injection Y as _ Y. eapply F; eassumption.
Qed.

Lemma toks_app3 pre a b c : toks_at pre (a ++ b ++ c) =
  toks_at pre a ++ toks_at (pre ++ a) b ++ toks_at ((pre ++ a) ++ b) c.
Proof. rewrite !toks_app. reflexivity. Qed.

Lemma byte_len_sharps n : byte_len (str "r" ++ repeat 0x23%N n ++ str """") = n + 2.
Proof.
  rewrite !byte_len_app. replace (byte_len (repeat 0x23%N n)) with n.
  - cbn. lia.
  - induction n as [|n IH]; cbn [repeat byte_len]; [reflexivity|]. rewrite <- IH. reflexivity.
Qed.

Lemma delimited_err {A B D} (p : parser span A) (o : parser span B) (c : parser span D) ts e :
  r_out (o ts) = Err e -> r_out (p_delimited p o c ts) = Err e.
Proof.
  intros H. unfold p_delimited, p_then_ignore, p_ignore_then, p_map, p_then, p_bind. rewrite H.
  reflexivity.
Qed.

Lemma begin_other pre c q : c <> 0x2F%N ->
  exists e, r_out (begin_comment 0x2A%N (toks_at pre (c :: q))) = Err e /\ is_eoi_error (l_err e) = false.
Proof.
  intros N. rewrite toks_cons. unfold begin_comment, p_ignore_then, p_map, p_then, p_bind, p_map_err, p_just.
  destruct (N.eqb_spec c 0x2F%N) as [X|_]; [congruence|]. eexists. split; reflexivity.
Qed.

Lemma begin_other2 pre d q : d <> 0x2A%N ->
  exists e, r_out (begin_comment 0x2A%N (toks_at pre (0x2F%N :: d :: q))) = Err e
            /\ is_eoi_error (l_err e) = false.
Proof.
  intros N. rewrite !toks_cons. unfold begin_comment, p_ignore_then, p_map, p_then, p_bind, p_map_err, p_just, p_ignored, p_map.
  cbn [N.eqb Pos.eqb r_out].
  destruct (N.eqb_spec d 0x2A%N) as [X|_]; [congruence|]. eexists. split; reflexivity.
Qed.

(** [ml_comment]: an unexpected end before which something was read comes after
    "/*". *)
Lemma ml_start n pre q e : r_out (ml_comment_rec n (toks_at pre q)) = Err e ->
  is_eoi_error (l_err e) = true -> (exists q', q = str "/*" ++ q') \/ q = [] \/ q = str "/".
Proof.
  intros H Z. destruct q as [|c q]; [auto|]. destruct n as [|n].
  { exfalso. rewrite toks_cons in H. cbn [ml_comment_rec r_out unexpected] in H. injection H as <-. discriminate Z. }
  cbn [ml_comment_rec] in H. unfold ml_body in H.
  destruct (N.eq_dec c 0x2F%N) as [->|N].
  - destruct q as [|d q]; [auto|]. destruct (N.eq_dec d 0x2A%N) as [->|N]; [left; exists q; reflexivity|].
    exfalso. destruct (begin_other2 pre d q N) as [e' [B Z']].
    rewrite (delimited_err _ _ _ _ _ B) in H. injection H as <-. congruence.
  - exfalso. destruct (begin_other pre c q N) as [e' [B Z']].
    rewrite (delimited_err _ _ _ _ _ B) in H. injection H as <-. congruence.
Qed.

Lemma ok_ml_rec n : okp anyc anyq (ml_comment_rec n).
Proof.
  induction n as [|n IH]; cbn [ml_comment_rec].
  - intros pre q T _. split; [constructor|]. apply unexpected_ok, T.
  - unfold ml_body, p_repeated. ok.
Qed.

Lemma ok_ml_comment C : okp C anyq ml_comment.
Proof.
  intros pre q T H. unfold ml_comment.
  remember (S (List.length (toks_at pre q))) as k eqn:Ek.
  refine (ok_map_err_with_span t (eq pre) anyq ml_comment_err (ml_comment_rec k) _ (ok_any t _ _ _ (ok_ml_rec _)) pre q T eq_refl).
  intros pre' q' e e' T' <- O G M. rewrite T in T'. apply app_inv_head in T'. subst q'. unfold ml_comment_err in M.
  destruct (is_eoi_error (l_err e)) eqn:Z; cbn [andb] in M.
  - destruct (Nat.ltb_spec 2 (sp_length (span_since (toks_at pre q) (l_rem e)))) as [L|L].
    + destruct (ml_start _ _ _ _ O Z) as [[q' ->]|[->| ->]].
      * eapply unclosed_ok; [exact T|exact G|exact Z|exact Del_comment
          |exact (start_at pre (str "/*") q' (l_rem e) T)| |exact M].
        intros Cl. inversion Cl as [p s q2 B X1 X2 X3| | |]; subst q'.
        eapply (succ_failed (ml_comment_rec k (toks_at pre (str "/*" ++ s ++ q2)))); [|exists e; exact O].
        replace (str "/*" ++ s ++ q2) with ((str "/*" ++ s) ++ q2) by (rewrite app_assoc; reflexivity).
        rewrite toks_app. apply (proj1 ml_complete_both (str "/*" ++ s) (Block true s B)).
        -- apply chars_toks.
        -- subst k. rewrite toks_len, !app_length. lia.
      * exfalso. rewrite (since_eq t _ _ _ T) in L. unfold passed in L. rewrite firstn_nil, app_nil_r in L.
        cbn [sp_length span_env ErrAt.E sp_start sp_end] in L. lia.
      * exfalso. rewrite (since_eq t _ _ _ T), byte_len_app in L.
        destruct G as [_ [G _]]. rewrite (G Z), passed_zero in L.
        cbn in L. lia.
    + injection M as <-. destruct G as [_ [G1 G2]]. auto.
  - injection M as <-. destruct G as [_ [G1 G2]]. auto.
Qed.
Hint Resolve ok_ml_comment : okd.

Lemma ok_ws C : okp C anyq ws.
Proof. unfold ws. ok. Qed.
Hint Resolve ok_ws : okd.

Lemma ok_comment C : okp C anyq comment.
Proof. unfold comment. ok. Qed.
Hint Resolve ok_comment : okd.

Lemma each_repeat x ms l : each (fun m c => m = [x] /\ c = x) ms l -> ms = repeat x (List.length l).
Proof.
  induction 1 as [|m a ms l [-> _] _ IH]; [reflexivity|]. cbn [List.length repeat app]. f_equal. exact IH.
Qed.

Lemma ok_raw_string C : okp C anyq raw_string.
Proof.
  unfold raw_string. apply ok_map_any. eapply ok_drop.
  apply (ok_bind t C (fun m n => m = str "r" ++ repeat 0x23%N n ++ str """") (fun _ => anyq)).
  - eapply ok_weaken; [| |eapply ok_map; [|apply ok_then; [eapply ok_map; [|apply ok_then;
      [apply ok_just|eapply ok_map; [|apply ok_repeat, ok_just]]]|apply ok_just]]].
    + intros pre H. exact H.
    + intros m a H. exact H.
    + intros m [n c] [m1 [m2 [-> [H1 [-> _]]]]]. cbn [fst snd] in *.
      instantiate (1 := fun m1 n => m1 = str "r" ++ repeat 0x23%N n) in H1. cbn beta in H1. subst m1.
      rewrite <- app_assoc. reflexivity.
    + intros m [c n] [m1 [m2 [-> [[-> _] H1]]]]. cbn [fst snd] in *.
      instantiate (1 := fun m2 n => m2 = repeat 0x23%N n) in H1. cbn beta in H1. subst m2. reflexivity.
    + intros m l H. apply each_repeat in H. exact H.
  - intros n. apply ok_map_err_with_span.
    + intros pre q e e' T [pre0 [m [-> [_ ->]]]] O G M. unfold raw_string_err in M.
      destruct (is_eoi_error (l_err e)) eqn:Z.
      * eapply unclosed_ok; [exact T|exact G|exact Z|exact (Del_raw n)| | |exact M].
        { rewrite <- byte_len_sharps. apply before_at. exact T. }
        intros Cl. inversion Cl as [| |n' p s q2 X1 X2 X3|]; subst q.
        destruct (first_of (raw_close n) s q2) as (a & b & X & F). rewrite X in *.
        eapply succ_failed; [|exists e; exact O]. rewrite toks_app3. apply succ_take_until.
        -- intros v1 v2 Y N. apply raw_end_failed.
           assert (a = chars v1 ++ chars v2) as Y'.
           { rewrite <- chars_app, <- Y. symmetry. apply chars_toks. }
           rewrite !chars_app, !chars_toks. apply (F _ _ Y'). intros N'. apply chars_nil in N'. auto.
        -- apply raw_end_complete. apply chars_toks.
      * injection M as <-. destruct G as [_ [G1 G2]]. auto.
    + unfold p_exactly. ok.
Qed.
Hint Resolve ok_raw_string : okd.

Definition after_backslash (pre : text) : Prop := exists p, pre = p ++ [0x5C%N].

Definition hex_braced (m : text) (ds : text) : Prop :=
  m = str "{" ++ ds ++ str "}" /\ 1 <= List.length ds <= 6 /\ Forall (digit_char 16) ds.

Definition in_code (pre : text) : Prop :=
  exists p ds, pre = p ++ str "\u{" ++ ds /\ Forall (digit_char 16) ds.

Lemma code_digits_sound (ts : toks span) ds rest :
  good (p_delimited (p_repeat 1 (Some 6) (p_filter_map esc_hex)) (p_just 0x7B%N) (p_just 0x7D%N) ts) ds rest ->
  exists s, ts = s ++ rest /\ hex_braced (chars s) ds.
Proof.
  intros G. apply good_delimited in G. destruct G as (x & y & r1 & r2 & G1 & G2 & G3).
  apply good_just in G1, G3. destruct G1 as (s1 & -> & ->), G3 as (s3 & -> & ->).
  apply good_repeat_1_6 in G2. destruct G2 as (Ch & L & _).
  apply (chain_one _ _ one_hex) in Ch. destruct Ch as (s & -> & <- & F).
  exists ((0x7B%N, s1) :: s ++ [(0x7D%N, s3)]). split; [cbn [app]; rewrite <- app_assoc; reflexivity|].
  split; [|split; [exact L|exact F]]. unfold chars. cbn [map]. rewrite map_app. reflexivity.
Qed.

Lemma ok_esc_char : okp after_backslash anyq esc_char.
Proof.
  unfold esc_char. apply ok_or.
  - apply ok_filter_map. intros pre c q T [p ->]. set (sp := Span _ _).
    assert (match esc_simple sp c with inl _ => True | inr _ => ~ In c (map fst simple_escapes) end) as N.
    { destruct (esc_simple sp c) as [v|e] eqn:X; [exact I|]. intros N. apply in_map_iff in N. destruct N as ((c' & v) & <- & N).
      apply (esc_simple_spec sp) in N. cbn [fst] in X. congruence. }
    assert (between t sp (p ++ [0x5C%N]) [c] q) as B by (split; [exact T|reflexivity]).
    assert (covers t sp [c]) as K by (exists (p ++ [0x5C%N]), q; exact B).
    revert N. unfold esc_simple.
    repeat match goal with |- context [if ?b then _ else _] =>
      lazymatch type of b with bool => destruct b; [intros _; exact I|] end end.
    intros N. cbv beta iota.
    split; [split; [exact K|split; [tidied|exact (La_escape t sp p c q B N)]]|reflexivity].
  - eapply ok_after; [apply ok_just|intros m a [H _]; exact H|]. apply ok_recover.
    apply (ok_try_map_at t _ hex_braced anyq).
    + intros pre m q ds T (pre0 & -> & p & ->) (-> & L & F) _. unfold esc_code.
      destruct (is_scalar (hex_value ds)) eqn:Sc; [exact I|].
      split; [|reflexivity]. rewrite <- (app_assoc p) in T. rewrite <- (app_assoc p). split.
      * exists (str "{" ++ ds ++ str "}"). split; [|discriminate]. exists (p ++ [0x5C%N] ++ [0x75%N]), q.
        split; [exact T|reflexivity].
      * apply (Ma_code t _ p ds (hex_value ds) q).
        -- split; [exact T|reflexivity].
        -- exact L.
        -- apply digits_value_hex. auto.
        -- intros V. apply is_scalar_spec in V. congruence.
    + intros m a [-> _]. discriminate.
    + apply ok_sound.
      * unfold p_delimited. apply ok_then_ignore; [|ok].
        eapply ok_after; [apply ok_just|intros m a [H _]; exact H|].
        eapply ok_weaken; [| |apply (ok_repeat_in t in_code (fun m c => m = [c] /\ digit_char 16 c))].
        -- intros pre (pre0 & -> & pre1 & -> & p & ->). exists p, []. rewrite <- !app_assoc, app_nil_r.
           split; [reflexivity|constructor].
        -- intros m a _. exact I.
        -- intros pre m c (p & ds & -> & F) [-> D]. exists p, (ds ++ [c]). rewrite <- !app_assoc.
           split; [reflexivity|]. apply Forall_app. split; [exact F|]. constructor; [exact D|constructor].
        -- apply ok_filter_map. intros pre c q T (p & ds & -> & F). unfold esc_hex.
           destruct (is_digit 16 c) eqn:D.
           { split; [reflexivity|]. apply is_digit_spec; [lia|exact D]. }
           set (sp := Span _ _).
           assert (between t sp (p ++ str "\u{" ++ ds) [c] q) as B by (split; [exact T|reflexivity]).
           assert (~ digit_char 16 c) as N.
           { intros X. apply is_digit_spec in X; [congruence|lia]. }
           split; [|reflexivity]. split; [exists (p ++ str "\u{" ++ ds), q; exact B|].
           split; [tidied|exact (La_hex t sp p ds c q B F N)].
      * unfold hex_digit. apply quiet_delimited; [apply quiet_repeat, quiet_filter_map|apply quiet_just..].
      * apply S_delimited; [apply S_repeat; [apply S_esc_hex|apply eats_filter_map]|..]; auto with safe.
      * exact code_digits_sound.
Qed.

Lemma ok_escape C : okp C anyq (p_ignore_then (p_just 0x5C%N) esc_char).
Proof.
  eapply ok_after; [apply ok_just|intros m a [H _]; exact H|].
  eapply ok_weaken; [| |exact ok_esc_char]; [|auto]. intros pre (pre0 & -> & _). exists pre0. reflexivity.
Qed.
Hint Resolve ok_escape : okd.

Lemma ok_escaped_string C : okp C anyq escaped_string.
Proof.
  unfold escaped_string. eapply ok_after; [apply ok_just|intros m a [H _]; exact H|].
  apply ok_map_err_with_span.
  - intros pre q e e' T (pre0 & -> & _) O G M. unfold string_err in M.
    destruct (is_eoi_error (l_err e)) eqn:Z.
    + eapply unclosed_ok; [exact T|exact G|exact Z|exact Del_string
        |exact (before_at pre0 (str """") q (l_rem e) T)| |exact M].
      intros Cl. inversion Cl as [|p s u q2 B X1 X2 X3| |]; subst q.
      eapply succ_failed; [|exists e; exact O].
      rewrite toks_app, toks_cons. eapply succ_then_ignore; [|apply succ_just].
      apply succ_repeated; [apply (schain_str _ _ B), chars_toks|].
      apply failed_or; [apply failed_filter; reflexivity|].
      apply failed_ignore_then1, failed_just. discriminate.
    + injection M as <-. destruct G as [_ [G1 G2]]. auto.
  - unfold p_repeated. ok.
Qed.
Hint Resolve ok_escaped_string : okd.

Lemma ok_string C : okp C anyq string_.
Proof. unfold string_. ok. Qed.
Hint Resolve ok_string : okd.

(** ** Identifiers *)

Lemma ok_plus_minus C : okp C (fun m c => m = [c]) plus_minus.
Proof.
  unfold plus_minus. apply ok_or; (eapply ok_weaken; [| |apply (ok_just t anyc)]; [unfold anyc; auto|]);
    intros m a [-> ->]; reflexivity.
Qed.

Lemma each_same ms l : each (fun m (c : char) => m = [c]) ms l -> ms = l.
Proof. induction 1 as [|m a ms l -> _ IH]; [reflexivity|]. cbn. f_equal. exact IH. Qed.

Lemma ok_cons2 C p p' : okp C (fun m c => m = [c]) p -> okp anyc (fun m l => m = l) p' ->
  okp C (fun m l => m = l) (p_map cons2 (p_then p p')).
Proof.
  intros P P'. eapply ok_map; [|apply ok_then; [exact P|exact P']].
  intros m [c l] [m1 [m2 [-> [-> ->]]]]. reflexivity.
Qed.

Lemma ok_id_chars C : okp C (fun m l => m = l) (p_repeated id_char).
Proof.
  eapply ok_weaken; [| |apply (ok_repeat t C), ok_id_char]; [auto|]. apply each_same.
Qed.

Lemma ok_bare_ident C : okp C anyq bare_ident.
Proof.
  unfold bare_ident. apply (ok_try_map t C (fun m s => m <> [] /\ m = s) anyq).
  - intros m a sp [_ <-] N K. unfold not_keyword, keyword_error.
    destruct (text_eqb m (str "true")) eqn:X0.
    { apply LexIdent.text_eqb_spec in X0. rewrite X0 in K. split; [|reflexivity].
      split; [exact K|split; [tidied|apply La_keyword; [exact K|cbn; tauto]]]. }
    destruct (text_eqb m (str "false")) eqn:X1.
    { apply LexIdent.text_eqb_spec in X1. rewrite X1 in K. split; [|reflexivity].
      split; [exact K|split; [tidied|apply La_keyword; [exact K|cbn; tauto]]]. }
    destruct (text_eqb m (str "null")) eqn:X2.
    { apply LexIdent.text_eqb_spec in X2. rewrite X2 in K. split; [|reflexivity].
      split; [exact K|split; [tidied|apply La_keyword; [exact K|cbn; tauto]]]. }
    exact I.
  - intros m a [H _]. exact H.
  - apply ok_eats.
    + apply ok_choice. foralls.
      * apply ok_cons2; [apply ok_plus_minus|].
        apply ok_cons2; [apply ok_id_sans_dig|apply ok_id_chars].
      * eapply ok_weaken; [| |apply (ok_repeat t C), ok_plus_minus]; [auto|]. apply each_same.
      * apply ok_cons2; [apply ok_id_sans_sign_dig|apply ok_id_chars].
    + apply eats_choice. foralls.
      * eapply eats_le; [apply eats_map, (eats_then 1 0); [apply eats_plus_minus|]|lia].
        apply eats_map. eapply eats_le; [apply (eats_then 1 0); [apply eats_id_sans_dig|]|lia].
        apply eats_repeated0, eats_id_char.
      * apply (eats_repeat 1 (Some 1)); [apply eats_plus_minus|lia].
      * eapply eats_le; [apply eats_map, (eats_then 1 0); [apply eats_id_sans_sign_dig|]|lia].
        apply eats_repeated0, eats_id_char.
Qed.
Hint Resolve ok_bare_ident : okd.

Lemma ok_digits C r : okp C anyq (digits r).
Proof. unfold digits, p_repeated. ok. Qed.
Hint Resolve ok_digits : okd.

Lemma ok_digit C r : okp C anyq (digit r).
Proof. unfold digit. ok. Qed.
Hint Resolve ok_digit : okd.

Lemma ok_opt_sign C : okp C anyq opt_sign.
Proof. unfold opt_sign. ok. Qed.
Hint Resolve ok_opt_sign : okd.

Lemma ok_number C : okp C anyq number.
Proof.
  unfold number, radix_number, decimal_number, fraction, exponent, radix_digits. ok.
Qed.
Hint Resolve ok_number : okd.

Lemma ok_number_text C : okp C number_text number.
Proof. apply ok_sound; [ok|apply quiet_number|apply GrammarSafe.S_number|apply number_sound]. Qed.

Lemma number_full m l : number_text m l -> m <> [].
Proof.
  intros H X. destruct H as [sg x n r s u _ _ _ _|sg s u _ I _|sg s f e u _ I _ _ _ _];
    apply app_eq_nil in X; destruct X as [_ X]; try discriminate.
  - subst s. inversion I.
  - apply app_eq_nil in X. destruct X as [-> _]. inversion I.
Qed.

Lemma ok_bare_text C : okp C (fun m s => m = s /\ bare_text s) bare_ident.
Proof.
  apply ok_sound; [ok|apply quiet_bare_ident|apply S_bare_ident|].
  intros ts a rest G. apply bare_ident_sound in G. destruct G as (s & -> & X & B & _). exists s. auto.
Qed.

Lemma ok_ident C : okp C anyq ident.
Proof.
  unfold ident.
  apply (ok_try_map t C (fun m a => m <> [] /\ match a with inl l => number_text m l | inr _ => True end) anyq).
  - intros m [l|a] sp [_ X] N K; [|exact I]. split; [|reflexivity].
    split; [exists m; auto|split; [tidied|exact (La_number t sp m l K X)]].
  - intros m a [H _]. exact H.
  - apply ok_eats.
    + apply ok_choice. foralls.
      * eapply ok_map; [|apply ok_number_text]. auto.
      * eapply ok_map; [|apply ok_bare_ident]. exact (fun _ _ _ => I).
      * eapply ok_map; [|apply ok_string]. exact (fun _ _ _ => I).
    + apply eats_choice. foralls; apply eats_map;
        [apply eats_number|apply eats_bare_ident|apply eats_string].
Qed.
Hint Resolve ok_ident : okd.

Lemma ok_keyword C : okp C anyq keyword.
Proof. unfold keyword, keyword1. ok. Qed.
Hint Resolve ok_keyword : okd.

Lemma ok_literal C : okp C anyq literal_.
Proof. unfold literal_. ok. Qed.
Hint Resolve ok_literal : okd.

Lemma ok_type_name C : okp C anyq type_name.
Proof. unfold type_name. ok. Qed.
Hint Resolve ok_type_name : okd.

Lemma ok_esc_line C : okp C anyq esc_line.
Proof. unfold esc_line. ok. Qed.
Hint Resolve ok_esc_line : okd.

Lemma ok_node_space C : okp C anyq node_space.
Proof. unfold node_space. ok. Qed.
Hint Resolve ok_node_space : okd.

Lemma ok_node_terminator C : okp C anyq node_terminator.
Proof. unfold node_terminator. ok. Qed.
Hint Resolve ok_node_terminator : okd.

Lemma ok_type_name_value C : okp C anyq type_name_value.
Proof. unfold type_name_value. ok. Qed.
Hint Resolve ok_type_name_value : okd.

Lemma ok_value C : okp C anyq value_.
Proof. unfold value_. ok. Qed.
Hint Resolve ok_value : okd.

Lemma ok_opt_value C : okp C anyq opt_value.
Proof. unfold opt_value. ok. Qed.
Hint Resolve ok_opt_value : okd.

(** What a literal other than a string was read from. *)
Definition read_as (m : text) (l : literal) : Prop :=
  match l with
  | LString _ => True
  | LBool _ | LNull => In m keywords
  | _ => number_text m l
  end.

Lemma ok_literal_text C : okp C (fun m l => m <> [] /\ read_as m l) literal_.
Proof.
  apply ok_eats; [|apply eats_literal]. unfold literal_. apply ok_choice. foralls.
  - eapply ok_map; [|apply ok_string]. exact (fun _ _ _ => I).
  - apply ok_sound; [ok|apply quiet_keyword|apply S_keyword|].
    intros ts l rest G. apply keyword_sound in G. destruct G as (s & -> & X). exists s.
    split; [reflexivity|]. unfold keyword_literals in X. cbn [In] in X.
    destruct X as [[= <- <-]|[[= <- <-]|[[= <- <-]|[]]]]; cbn [read_as keywords In]; tauto.
  - eapply ok_weaken; [| |apply (ok_number_text C)]; [auto|]. intros m l X.
    destruct X; exact (ltac:(econstructor; eassumption) : number_text _ _).
Qed.

Lemma ok_opt_value_text C : okp C (fun m v => match v with Some _ => exists m', m = 0x3D%N :: m' | None => m = [] end) opt_value.
Proof.
  unfold opt_value. apply (ok_or_not_text t C (fun m _ => exists m', m = 0x3D%N :: m')).
  unfold p_ignore_then.
  apply (ok_map t C (fun m (r : char * value span) => exists m1 m2, m = m1 ++ m2
    /\ (m1 = [0x3D%N] /\ fst r = 0x3D%N) /\ anyq m2 (snd r))).
  - intros m a (m1 & m2 & -> & [-> _] & _). exists m2. reflexivity.
  - apply (ok_then t C (fun m c => m = [0x3D%N] /\ c = 0x3D%N) anyq); [apply ok_just|apply ok_value].
Qed.

Lemma ok_literal_item C : okp C anyq
  (p_try_map literal_item (p_then (p_spanned literal_) opt_value)).
Proof.
  apply ok_each_pre. intros pre0 _.
  apply (ok_try_map_at t (eq pre0) (fun m r => exists m1 m2, m = m1 ++ m2 /\ m1 <> []
    /\ read_as m1 (s_value (fst r)) /\ s_span (fst r) = Span (byte_len pre0) (byte_len (pre0 ++ m1))
    /\ match snd r with Some _ => exists m', m2 = 0x3D%N :: m' | None => m2 = [] end) anyq).
  - intros pre m q [[sp l] v] T <- (m1 & m2 & -> & N & R & Sp & V) _.
    cbn [fst snd s_value s_span] in *. subst sp. unfold literal_item. cbn [s_span s_value]. set (sp := Span _ _).
    destruct v as [v|]; [|destruct l; exact I].
    destruct V as [m' ->].
    assert (between t sp pre0 m1 (0x3D%N :: m' ++ q)) as B.
    { split; [|reflexivity]. rewrite T, <- app_assoc. reflexivity. }
    assert (exists s, covers t sp s /\ s <> []) as K.
    { exists m1. split; [|exact N]. exists pre0, (0x3D%N :: m' ++ q). exact B. }
    destruct l; try exact I; (split; [|reflexivity]); cbn [read_as] in R.
    all: split; [exact K|]; first [exact (Ha_number t sp pre0 m1 _ _ B R)
                                  |split; [tidied|exact (La_name t sp pre0 m1 _ B R)]].
  - intros m a (m1 & m2 & -> & N & _). destruct m1; [congruence|discriminate].
  - eapply ok_weaken; [| |apply (ok_then t (eq pre0) (fun m r => (m <> [] /\ read_as m (s_value r))
        /\ s_span r = Span (byte_len pre0) (byte_len (pre0 ++ m)))
      (fun m v => match v with Some _ => exists m', m = 0x3D%N :: m' | None => m = [] end));
      [apply (ok_spanned_at t pre0 (fun m l => m <> [] /\ read_as m l))|apply ok_opt_value_text]].
    + auto.
    + intros m r (m1 & m2 & -> & ((N & R) & S) & V). exists m1, m2. auto.
    + intros m a [N _]. exact N.
    + apply ok_literal_text.
Qed.
Hint Resolve ok_literal_item : okd.

Definition bare_read (m : text) (_ : text) : Prop := bare_text m.

Lemma ok_ident_item C : okp C anyq
  (p_validate ident_item_check (p_then (p_spanned bare_ident) opt_value)).
Proof.
  apply (ok_validate t C (fun m r => m <> [] /\ (snd r = None -> bare_text m)) anyq).
  - intros m r sp [_ X] N K. split; [exact I|]. unfold ident_item_check. cbn [snd].
    destruct (snd r); [exact I|]. split; [|reflexivity]. split; [exists m; auto|].
    apply (Ha_ident t sp m K). apply X. reflexivity.
  - intros m a [H _]. exact H.
  - apply ok_eats.
    + eapply ok_weaken; [| |apply (ok_then t C (fun m r => bare_read m (s_value r))
        (fun m v => match v with Some _ => exists m', m = 0x3D%N :: m' | None => m = [] end));
        [apply (ok_spanned t C bare_read)|apply ok_opt_value_text]].
      * auto.
      * intros m r (m1 & m2 & -> & X & V) E. rewrite E in V. subst m2. rewrite app_nil_r. exact X.
      * intros m a X. destruct X; discriminate.
      * eapply ok_weaken; [| |apply (ok_bare_text C)]; [auto|]. intros m s [-> X]. exact X.
    + eapply eats_le; [apply (eats_then 1 0)|lia].
      * apply eats_spanned, eats_bare_ident.
      * apply safe_eats0. apply S_opt_value.
Qed.
Hint Resolve ok_ident_item : okd.

Lemma ok_prop_or_arg_inner C : okp C anyq prop_or_arg_inner.
Proof. unfold prop_or_arg_inner. ok. Qed.
Hint Resolve ok_prop_or_arg_inner : okd.

Lemma ok_prop_or_arg C : okp C anyq prop_or_arg.
Proof. unfold prop_or_arg. ok. Qed.
Hint Resolve ok_prop_or_arg : okd.

Lemma ok_line_space C : okp C anyq line_space.
Proof. unfold line_space. ok. Qed.
Hint Resolve ok_line_space : okd.

Lemma ok_slashdash C : okp C anyq slashdash.
Proof. unfold slashdash. ok. Qed.
Hint Resolve ok_slashdash : okd.

Lemma ok_node_items C : okp C anyq node_items.
Proof. unfold node_items. ok. Qed.
Hint Resolve ok_node_items : okd.

(** There is enough fuel for what is left of the text. *)
Definition fuelled (n : nat) (pre : text) : Prop := List.length t < n + List.length pre.

Lemma fuelled_on n : kept_on (fuelled n).
Proof. intros pre m H. unfold fuelled in *. rewrite app_length. lia. Qed.

Lemma ok_braced n : okp (fuelled n) anyq (nodes_rec n) ->
  okp (fuelled (S n)) anyq (braced_nodes (nodes_rec n)).
Proof.
  intros P. unfold braced_nodes. eapply ok_after; [apply ok_just|intros m a [H _]; exact H|].
  apply ok_map_err_with_span.
  - intros pre q e e' T (pre0 & -> & Fu) O G M. unfold braces_err in M.
    destruct (is_eoi_error (l_err e)) eqn:Z.
    + eapply unclosed_ok; [exact T|exact G|exact Z|exact Del_braces
        |exact (before_at pre0 (str "{") q (l_rem e) T)| |exact M].
      intros Cl. inversion Cl as [| | |p s q2 l B X1 X2 X3]; subst q.
      eapply succ_failed; [|exists e; exact O].
      rewrite toks_app. eapply succ_then_ignore with (r1 := toks_at ((pre0 ++ str "{") ++ s) (0x7D%N :: q2));
        [|rewrite toks_cons; apply succ_just].
      apply (proj1 (proj2 (proj2 (proj2 complete_all))) _ _ _ B).
      * right. fold (toks_at ((pre0 ++ str "{") ++ s) (0x7D%N :: q2)). rewrite chars_toks. reflexivity.
      * fold (toks_at (pre0 ++ str "{") s). rewrite toks_len. unfold fuelled in Fu.
        rewrite T in Fu. rewrite !app_length in Fu. cbn [List.length str] in Fu.
        rewrite Nat.add_comm in Fu. cbn in Fu. lia.
    + injection M as <-. destruct G as [_ [G1 G2]]. auto.
  - apply ok_then_ignore; [|ok]. eapply ok_weaken; [| |exact P]; [|auto].
    intros pre (pre0 & -> & Fu). unfold fuelled in *. rewrite app_length. cbn. lia.
Qed.

Lemma ok_opt_children n : okp (fuelled n) anyq (nodes_rec n) ->
  okp (fuelled (S n)) anyq (opt_children (nodes_rec n)).
Proof.
  intros P. unfold opt_children. apply ok_or_not, ok_then_on; [apply fuelled_on|ok|].
  apply ok_map_with_span_any, ok_braced, P.
Qed.

Lemma ok_node n : okp (fuelled n) anyq (nodes_rec n) ->
  okp (fuelled (S n)) anyq (node_ (nodes_rec n)).
Proof.
  intros P. unfold node_. apply ok_map_any, ok_then_ignore; [|ok].
  apply ok_then_on; [apply fuelled_on|ok|]. apply ok_opt_children, P.
Qed.

Lemma ok_nodes_body n : okp (fuelled n) anyq (nodes_rec n) ->
  okp (fuelled (S n)) anyq (nodes_body (nodes_rec n)).
Proof.
  intros P. unfold nodes_body. apply ok_map_any, ok_separated_on; [apply fuelled_on| |ok].
  apply ok_then_on; [apply fuelled_on|ok|]. apply ok_map_with_span_any, ok_node, P.
Qed.

Lemma ok_nodes_rec n : okp (fuelled n) anyq (nodes_rec n).
Proof.
  induction n as [|n IH]; cbn [nodes_rec].
  - intros pre q T _. split; [constructor|]. apply unexpected_ok, T.
  - apply ok_nodes_body, IH.
Qed.

Lemma ok_document : okp anyc anyq document_.
Proof.
  unfold document_. apply ok_then_ignore; [|ok].
  intros pre q T H. apply (ok_nodes_rec _ pre q T). unfold fuelled. rewrite T, toks_len, !app_length. lia.
Qed.

End ErrGrammar.

Lemma run_right {A} t (p : parser span A) errs : okp t anyc anyq p ->
  run p (toks_at [] t) = Rejected errs -> Forall (error_right t) errs.
Proof.
  intros P R. destruct (P [] t eq_refl I) as [H1 H2]. unfold run in R.
  destruct (r_crash (p (toks_at [] t))); [|discriminate].
  assert (forall l, Forall (gl t t) l -> Forall (error_right t) (map l_err l)) as M.
  { intros l H. apply Forall_map. eapply Forall_impl; [|exact H]. intros a X. apply X. }
  destruct (r_out (p (toks_at [] t))) as [a rest alt|e].
  - destruct (r_errs (p (toks_at [] t))) as [|x l]; [discriminate|]. injection R as <-.
    apply (M (x :: l)), H1.
  - injection R as <-. apply M. apply Forall_app. split; [exact H1|]. constructor; [exact H2|constructor].
Qed.

(** Every error of a parse says what is in the source. *)
Theorem parse_errors_right t errs : parse_ast_span t = Rejected errs -> Forall (error_right t) errs.
Proof. exact (run_right t _ errs (ok_document t)). Qed.
