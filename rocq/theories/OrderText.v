(** The errors emitted inside strings, and by items of a node. *)

From Coq Require Import NArith PeanoNat List Bool String Lia.
From Verif Require Import Chars Ast Errors Chumsky Spans Grammar Safe GrammarSafe GrammarNear SpanProps ErrSpec ErrAt ErrGrammar
  OrderSpec OrderCalc OrderLow OrderStuck OrderNeat OrderNode OrderEmit.
Import ListNotations.
Local Open Scope list_scope.

Local Strategy 100 [p_filter p_just p_just_str p_end p_filter_map p_map p_ignored p_map_with_span p_map_err p_map_err_with_span
  p_try_map p_validate p_bind p_then p_ignore_then p_then_ignore p_delimited p_or p_choice p_or_not p_rewind p_repeat p_repeated
  p_exactly p_take_until p_recover_skip_until p_separated p_spanned ml_comment_rec nodes_rec span_since ErrAt.E].

Section OrderText.
Variable t : text.

#[local] Hint Extern 0 (env span) => exact (ErrAt.E t) : typeclass_instances.

Notation parser := (Chumsky.parser span).
Notation located := (Chumsky.located span).
Notation toks := (Chumsky.toks span).
Notation pos_rem := (OrderCalc.pos_rem t).
Notation pos := (OrderCalc.pos t).
Notation wt := (OrderCalc.wt t).
Notation from := (OrderCalc.from t).
Notation pl := (OrderCalc.pl t).
Notation plain := (OrderCalc.plain t).
Notation okl := (OrderCalc.okl t).
Notation neat := (OrderStuck.neat t).
Notation blocks := (OrderStuck.blocks t).
Notation stuck := (OrderStuck.stuck t).
Notation needs := (OrderStuck.needs t).
Notation sound := (OrderEmit.sound t).
Notation mute := (OrderEmit.mute t).
Notation ended := (OrderEmit.ended t).

(** ** Reading up to where recovery stops *)

Section Stop.
Variable f : char -> bool.

Lemma skip_len (ts x : toks) : skip_to f ts = Some x -> List.length x <= List.length ts.
Proof.
  induction ts as [|[c s] ts IH]; cbn [skip_to]; [discriminate|]. destruct (f c).
  - intros [= <-]. lia.
  - intros H. apply IH in H. cbn. lia.
Qed.

Definition far (x : toks) (l : located) : Prop := List.length x <= l_rem l.

Lemma far_respects x : respects (far x).
Proof. intros a b [R _]. unfold far. rewrite R. auto. Qed.

(** The parser does not read past the first character of [f], and reads none. *)
Definition pass_ok {A} (p : parser A) : Prop := forall ts x a r alt, skip_to f ts = Some x ->
  r_out (p ts) = Ok a r alt -> skip_to f r = Some x /\ opt (far x) alt.
Definition pass_err {A} (p : parser A) : Prop := forall ts x e, skip_to f ts = Some x -> r_out (p ts) = Err e -> far x e.

Lemma pass_err_just c : pass_err (p_just c).
Proof.
  intros ts x e S O. unfold far. apply skip_len in S. destruct ts as [|[d s] ts]; cbn [p_just] in O.
  - injection O as <-. exact S.
  - destruct (d =? c)%N; [discriminate|]. injection O as <-. exact S.
Qed.

Lemma pass_just c : f c = false -> pass_ok (p_just c).
Proof.
  intros F ts x a r alt S O. destruct ts as [|[d s] ts]; cbn [p_just] in O; [discriminate|].
  destruct (d =? c)%N eqn:E; [|discriminate]. apply N.eqb_eq in E. subst d. injection O as <- <- <-.
  cbn [skip_to] in S. rewrite F in S. split; [exact S|exact I].
Qed.

Lemma pass_err_filter_map {A} (g : span -> char -> A + perror span) : pass_err (p_filter_map g).
Proof.
  intros ts x e S O. unfold far. apply skip_len in S. destruct ts as [|[d s] ts]; cbn [p_filter_map] in O.
  - injection O as <-. exact S.
  - destruct (g s d); [discriminate|]. injection O as <-. exact S.
Qed.

Lemma pass_filter_map {A} (g : span -> char -> A + perror span) : (forall s c a, g s c = inl a -> f c = false) -> pass_ok (p_filter_map g).
Proof.
  intros F ts x a r alt S O. destruct ts as [|[d s] ts]; cbn [p_filter_map] in O; [discriminate|].
  destruct (g s d) as [b|] eqn:E; [|discriminate]. injection O as <- <- <-.
  cbn [skip_to] in S. rewrite (F _ _ _ E) in S. split; [exact S|exact I].
Qed.

Lemma pass_bind {A B} (p : parser A) (k : A -> parser B) : pass_ok p -> (forall a, pass_ok (k a)) -> pass_ok (p_bind p k).
Proof.
  intros P K ts x ab r alt S O. apply then_rest in O. destruct O as (r1 & al1 & al2 & O1 & O2 & ->).
  destruct (P _ _ _ _ _ S O1) as [S1 A1]. destruct (K _ _ _ _ _ _ S1 O2) as [S2 A2]. split; [exact S2|].
  destruct (merge_alts al1 al2) as [al c] eqn:M. cbn. eapply merge_alts_with; [apply far_respects|exact M|exact A1|exact A2].
Qed.

Lemma pass_err_bind {A B} (p : parser A) (k : A -> parser B) : pass_ok p -> pass_err p -> (forall a, pass_err (k a)) -> pass_err (p_bind p k).
Proof.
  intros P P' K ts x e S O. unfold p_bind in O. destruct (r_out (p ts)) as [a r al|e0] eqn:O1.
  - destruct (P _ _ _ _ _ S O1) as [S1 A1]. destruct (r_out (k a r)) as [b r2 al2|e2] eqn:O2.
    + destruct (merge_alts al al2). discriminate.
    + destruct (lmax_opt e2 al) as [e3 c] eqn:M. injection O as ->.
      eapply lmax_opt_with; [apply far_respects|exact M|eapply K; eassumption|exact A1].
  - injection O as <-. eapply P'; eassumption.
Qed.

Lemma pass_map {A B} (g : A -> B) p : pass_ok p -> pass_ok (p_map g p).
Proof. intros P ts x b r alt S O. apply map_rest in O. destruct O as (a & O & _). eapply P; eassumption. Qed.

Lemma pass_err_map {A B} (g : A -> B) p : pass_err p -> pass_err (p_map g p).
Proof. intros P ts x e S O. apply map_err_out in O. eapply P; eassumption. Qed.

Lemma pass_repeat_loop {A} (p : parser A) least most : pass_ok p -> pass_err p ->
  forall fuel errs outs alt old cr ts x, skip_to f ts = Some x -> opt (far x) alt ->
  match r_out (repeat_loop fuel p least most errs outs alt old cr ts) with
  | Ok _ r alt' => skip_to f r = Some x /\ opt (far x) alt'
  | Err e => far x e
  end.
Proof.
  intros P P'. induction fuel as [|fuel IH]; intros errs outs alt old cr ts x S A1; cbn [repeat_loop]; [cbn; auto|].
  destruct (match most with Some m => m <=? List.length outs | None => false end); [cbn; auto|].
  destruct (r_out (p ts)) as [a r al|e] eqn:X.
  - destruct (P _ _ _ _ _ S X) as [S1 A2]. destruct (merge_alts alt al) as [al2 c] eqn:M.
    assert (opt (far x) al2) as A3 by (eapply merge_alts_with; [apply far_respects|exact M|exact A1|exact A2]).
    destruct (match old with Some o => o =? List.length r | None => false end); [cbn; auto|]. apply IH; assumption.
  - pose proof (P' _ _ _ S X) as Fe. destruct (List.length outs <? least); [exact Fe|].
    destruct (merge_alts alt (Some e)) as [al2 c] eqn:M. cbn. split; [exact S|].
    eapply merge_alts_with; [apply far_respects|exact M|exact A1|exact Fe].
Qed.

Lemma pass_repeat {A} n m (p : parser A) : pass_ok p -> pass_err p -> pass_ok (p_repeat n m p).
Proof.
  intros P P' ts x a r alt S O. unfold p_repeat in O.
  pose proof (pass_repeat_loop p n m P P' (3 + List.length ts) [] [] None None [] ts x S I) as H. rewrite O in H. exact H.
Qed.

Lemma pass_err_repeat {A} n m (p : parser A) : pass_ok p -> pass_err p -> pass_err (p_repeat n m p).
Proof.
  intros P P' ts x e S O. unfold p_repeat in O.
  pose proof (pass_repeat_loop p n m P P' (3 + List.length ts) [] [] None None [] ts x S I) as H. rewrite O in H. exact H.
Qed.

End Stop.

Lemma hex_not_stop (s : span) c a : esc_hex s c = inl a -> esc_stop c = false.
Proof.
  unfold esc_hex. destruct (is_digit 16 c) eqn:D; [|discriminate]. intros _.
  unfold esc_stop. destruct (c =? 0x7D)%N eqn:A; [apply N.eqb_eq in A; subst; discriminate|].
  destruct (c =? 0x22)%N eqn:B; [apply N.eqb_eq in B; subst; discriminate|].
  destruct (c =? 0x5C)%N eqn:C; [apply N.eqb_eq in C; subst; discriminate|]. reflexivity.
Qed.

Definition code_open : parser (list char) := p_ignore_then (p_just 0x7B%N) (p_repeat 1 (Some 6) (p_filter_map esc_hex)).
Definition code : parser (list char) := p_then_ignore code_open (p_just 0x7D%N).

Lemma pass_open : pass_ok esc_stop code_open.
Proof.
  unfold code_open, p_ignore_then, p_then. apply pass_map, pass_bind; [apply pass_just; reflexivity|intros _].
  apply pass_repeat; [apply pass_filter_map; apply hex_not_stop|apply pass_err_filter_map].
Qed.

Lemma pass_err_open : pass_err esc_stop code_open.
Proof.
  unfold code_open, p_ignore_then, p_then. apply pass_err_map, pass_err_bind; [apply pass_just; reflexivity|apply pass_err_just|intros _].
  apply pass_err_repeat; [apply pass_filter_map; apply hex_not_stop|apply pass_err_filter_map].
Qed.

Lemma pass_err_code : pass_err esc_stop code.
Proof.
  unfold code, p_then_ignore, p_then. apply pass_err_map, pass_err_bind; [apply pass_open|apply pass_err_open|intros _; apply pass_err_just].
Qed.

Lemma code_ok (ts x : toks) a r alt : skip_to esc_stop ts = Some x -> r_out (code ts) = Ok a r alt -> tl x = r /\ List.length r < List.length ts.
Proof.
  intros S O. unfold code, p_then_ignore in O. apply map_rest in O. destruct O as [ab [O _]]. unfold p_then in O.
  apply then_rest in O. destruct O as (r1 & al1 & al2 & O1 & O2 & _). destruct (pass_open _ _ _ _ _ S O1) as [S1 _].
  destruct r1 as [|[c s] r1]; [discriminate|]. cbn [p_just] in O2. destruct (c =? 0x7D)%N eqn:E; [|discriminate].
  injection O2 as _ <- _. cbn [skip_to] in S1. unfold esc_stop in S1. rewrite E in S1. cbn [orb] in S1. injection S1 as <-.
  split; [reflexivity|]. apply ignore_then_ok in O1. destruct O1 as (b & r2 & al3 & al4 & O1 & O3 & _).
  apply eats_just in O1.
  assert (eats 1 (p_repeat 1 (Some 6) (p_filter_map (@esc_hex span)))) as H by (apply eats_repeat; [apply eats_filter_map|lia]).
  apply H in O3. cbn [List.length] in O3. lia.
Qed.

(** ** Characters of a string *)

Lemma pos_le (ts ts' : toks) : List.length ts' <= List.length ts -> pos ts <= pos ts'.
Proof. intros H. apply pos_mono, H. Qed.

Lemma tl_len (ts ts' : toks) : List.length ts' <= List.length ts -> List.length (tl ts') <= List.length (tl ts).
Proof. destruct ts, ts'; cbn; lia. Qed.

Lemma tl_len1 (ts : toks) : List.length (tl ts) <= List.length ts.
Proof. destruct ts; cbn; lia. Qed.

Lemma or_quiet_ok {A} (p k : parser A) (ts : toks) b rest alt : quiet p -> r_out (p_or p k ts) = Ok b rest alt ->
  (r_errs (p_or p k ts) = [] /\ exists al, r_out (p ts) = Ok b rest al)
  \/ (r_errs (p_or p k ts) = r_errs (k ts) /\ exists al, r_out (k ts) = Ok b rest al).
Proof.
  intros Q. destruct (p_or_cases p k ts) as
    [(a & r & al & He & Ho & X)
    |[D [(a & r & al & alt' & c & Ho & He & M & X)
        |[(a & r & al & alt' & c & Ho & M & X)
         |(ea & eb & Ha & Hb & [[X _]|[[X _]|(e' & c & M & Le & X)]])]]]]; rewrite X; cbn [r_out r_errs]; try discriminate.
  - intros H. left. rewrite H. split; [apply Q|eauto].
  - elim He. apply Q.
  - intros [= <- <- <-]. right. eauto.
Qed.

Lemma ignore_then_errs {A B} (p : parser A) (k : parser B) (ts : toks) a r1 al : r_out (p ts) = Ok a r1 al ->
  r_errs (p_ignore_then p k ts) = r_errs (p ts) ++ r_errs (k r1).
Proof. intros O. unfold p_ignore_then, p_map, p_then. cbn [r_errs]. exact (bind_errs p (fun _ => k) ts _ _ _ O). Qed.

Lemma then_ignore_errs {A B} (p : parser A) (k : parser B) (ts : toks) a r1 al : r_out (p ts) = Ok a r1 al ->
  r_errs (p_then_ignore p k ts) = r_errs (p ts) ++ r_errs (k r1).
Proof. intros O. unfold p_then_ignore, p_map, p_then. cbn [r_errs]. exact (bind_errs p (fun _ => k) ts _ _ _ O). Qed.

Lemma just_ok x (ts : toks) a r al : r_out (p_just x ts) = Ok a r al -> exists s, ts = (x, s) :: r.
Proof.
  destruct ts as [|[c s] ts]; cbn [p_just]; [discriminate|]. destruct (c =? x)%N eqn:E; [|discriminate].
  intros [= <- <- <-]. apply N.eqb_eq in E. subst. eauto.
Qed.

Lemma try_map_err {A B} (f : A -> span -> B + perror span) (p : parser A) (ts : toks) e : r_out (p_try_map f p ts) = Err e ->
  (exists b r alt e2, r_out (p ts) = Ok b r alt /\ f b (span_since ts (List.length r)) = inr e2 /\ e = Located (List.length r) e2)
  \/ r_out (p ts) = Err e.
Proof.
  unfold p_try_map. cbn [r_out]. destruct (r_out (p ts)) as [b r alt|e'] eqn:Y.
  - destruct (f b _) as [c|e2] eqn:Z; [discriminate|]. intros [= <-]. left. exists b, r, alt, e2. auto.
  - intros [= <-]. auto.
Qed.

Lemma quiet_code : quiet (p_try_map esc_code code).
Proof.
  apply quiet_try_map, quiet_then_ignore; [|apply quiet_just]. apply quiet_ignore_then; [apply quiet_just|].
  apply quiet_repeat, quiet_filter_map.
Qed.

Lemma recovered (ts : toks) a rest al : wt ts ->
  r_out (p_recover_skip_until (A := char) esc_stop 0%N (p_try_map esc_code code) ts) = Ok a rest al ->
  inside (pos ts) (pos (tl rest)) (r_errs (p_recover_skip_until (A := char) esc_stop 0%N (p_try_map esc_code code) ts)).
Proof.
  intros W O. unfold p_recover_skip_until in O |- *. cbv zeta in O |- *.
  assert (okl from (p_try_map esc_code code)) as L.
  { apply low_try_start; [|apply b_code_digits, from_place]. intros b s e H. unfold esc_code in H.
    destruct (is_scalar _); [discriminate|]. injection H as <-. reflexivity. }
  destruct (r_out (p_try_map esc_code code ts)) as [b r alt|e] eqn:X.
  - rewrite X in O. injection O as _ <- _. rewrite (quiet_code ts). cbn. destruct (ok_wt _ _ _ _ _ _ L W X) as [_ H].
    apply pos_le. pose proof (tl_len1 r). lia.
  - destruct (skip_to esc_stop ts) as [x|] eqn:S; [|congruence]. cbn [r_out r_errs] in O |- *. injection O as <- <- <-.
    rewrite (quiet_code ts). cbn [app inside].
    destruct (skip_to_wt t _ _ _ W S) as [Wx Lx].
    assert (1 <= List.length x) as X1.
    { clear -S. revert x S. induction ts as [|[c s] ts IH]; cbn [skip_to]; [discriminate|]. destruct (esc_stop c); [|exact IH].
      intros x [= <-]. cbn. lia. }
    apply try_map_err in X. destruct X as [(b & r & alt & e2 & Y & Z & ->)|Y].
    + cbn [l_err].
      destruct (code_ok _ _ _ _ _ S Y) as [<- Lr].
      unfold esc_code in Z. destruct (is_scalar _); [discriminate|]. injection Z as <-. cbn [perror_spans].
      exists (pos ts), (pos (tl x)). split.
      * exact (f_equal (fun s => [s]) (since_wt t ts _ W Lr)).
      * split; [lia|]. split; [|lia]. apply pos_strict; [exact Lr|]. apply wt_len, W.
    + assert (plain e) as P by (eapply err_pl; [apply b_code_digits, pl_place|exact W|exact Y]).
      pose proof (pass_err_code _ _ _ S Y) as F. unfold far in F.
      assert (from (List.length ts) e) as G by (eapply low_err; [apply b_code_digits, from_place|exact W|exact Y]).
      exists (pos_rem (l_rem e)), (pos_rem (pred (l_rem e))). split; [exact P|].
      destruct G as [G1 G2]. pose proof (wt_len t ts W) as T. split; [apply pos_mono, G1|]. split.
      * apply pos_strict; lia.
      * apply pos_mono. destruct x; cbn in *; lia.
Qed.

Lemma esc_char_inside (ts : toks) a rest al : wt ts -> r_out (esc_char ts) = Ok a rest al ->
  inside (pos ts) (pos (tl rest)) (r_errs (esc_char ts)).
Proof.
  intros W O. destruct (ok_wt t _ _ _ _ _ (low_esc_char t) W O) as [_ L].
  unfold esc_char in O |- *. apply or_quiet_ok in O; [|apply quiet_filter_map]. destruct O as [[-> _]|[-> [al' O]]].
  - cbn. apply pos_le. pose proof (tl_len1 rest). lia.
  - pose proof O as O'. apply ignore_then_ok in O. destruct O as (c & r1 & al1 & al2 & O1 & O2 & _).
    rewrite (ignore_then_errs _ _ _ _ _ _ O1), (quiet_just (0x75%N) ts). cbn [app].
    destruct (just_ok _ _ _ _ _ O1) as [s ->]. apply wt_cons in W. destruct W as [W _].
    apply recovered in O2; [|exact W]. eapply inside_mono; [exact O2| |lia]. apply pos_le. cbn. lia.
Qed.

Lemma string_char_inside (ts : toks) a rest al : wt ts -> r_out (string_char t ts) = Ok a rest al ->
  inside (pos (tl ts)) (pos (tl rest)) (r_errs (string_char t ts)).
Proof.
  intros W O. destruct (ok_wt t _ _ _ _ _ (low_string_char t) W O) as [_ L].
  unfold string_char in O |- *. apply or_quiet_ok in O; [|apply quiet_filter]. destruct O as [[-> _]|[-> [al' O]]].
  - cbn. apply pos_le, tl_len, L.
  - pose proof O as O'. apply ignore_then_ok in O. destruct O as (c & r1 & al1 & al2 & O1 & O2 & _).
    rewrite (ignore_then_errs _ _ _ _ _ _ O1), (quiet_just (0x5C%N) ts). cbn [app].
    destruct (just_ok _ _ _ _ _ O1) as [s ->]. apply wt_cons in W. destruct W as [W _]. cbn [tl].
    apply esc_char_inside in O2; assumption.
Qed.

Lemma chars_inside : forall fuel n errs outs alt old cr (ts : toks), wt ts -> inside n (pos (tl ts)) errs ->
  forall o rest alt', r_out (repeat_loop fuel (string_char t) 0 None errs outs alt old cr ts) = Ok o rest alt' ->
  inside n (pos (tl rest)) (r_errs (repeat_loop fuel (string_char t) 0 None errs outs alt old cr ts)).
Proof.
  induction fuel as [|fuel IH]; intros n errs outs alt old cr ts W I1 o rest alt'; cbn [repeat_loop].
  - cbn. intros [= <- <- <-]. exact I1.
  - destruct (r_out (string_char t ts)) as [a r al|e] eqn:X.
    + destruct (ok_wt t _ _ _ _ _ (low_string_char t) W X) as [W1 _].
      pose proof (string_char_inside _ _ _ _ W X) as I2.
      assert (inside n (pos (tl r)) (errs ++ r_errs (string_char t ts))) as I3 by (eapply inside_app; eassumption).
      destruct (merge_alts alt al) as [al2 c].
      destruct (match old with Some o => o =? List.length r | None => false end).
      * cbn [r_out r_errs]. intros [= <- <- <-]. exact I3.
      * apply IH; assumption.
    + cbn [Nat.ltb Nat.leb]. destruct (merge_alts alt (Some e)) as [al2 c].
      cbn [r_out r_errs]. intros [= <- <- <-]. exact I1.
Qed.

Definition string_rest : parser text := p_then_ignore (p_repeated (string_char t)) (p_just 0x22%N).

Lemma string_rest_inside (ts : toks) a rest al : wt ts -> r_out (string_rest ts) = Ok a rest al ->
  inside (pos ts) (pos rest) (r_errs (string_rest ts)).
Proof.
  intros W O. unfold string_rest in O |- *. pose proof O as O'. unfold p_then_ignore in O'. apply map_rest in O'.
  destruct O' as [ab [O' _]]. unfold p_then in O'. apply then_rest in O'. destruct O' as (r1 & al1 & al2 & O1 & O2 & _).
  rewrite (then_ignore_errs _ _ _ _ _ _ O1), (quiet_just (0x22%N) r1), app_nil_r.
  destruct (just_ok _ _ _ _ _ O2) as [s ->]. unfold p_repeated, p_repeat in O1 |- *.
  eapply (chars_inside _ (pos ts)) in O1; [exact O1|exact W|]. cbn. apply pos_le, tl_len1.
Qed.

Lemma neat_string_rest : neat nowhere string_rest.
Proof.
  unfold string_rest. apply (neat_then_ignore t (stuck (string_char t))).
  - apply l_repeated; [apply from_place|apply low_string_char].
  - apply neat_repeat_nowhere; [apply low_string_char|apply neat_string_char].
  - apply neat_pl, l_just, pl_place.
  - intros ts W S. apply just_fails; [exact W|].
    pose proof (needs_stuck t _ _ _ (needs_string_char t) W S) as F.
    revert F. apply apart. intros c X Y. unfold is_c in Y. rewrite Y in X. discriminate.
Qed.

Lemma sound_escaped : sound escaped_string.
Proof.
  unfold escaped_string. fold (string_char t). fold string_rest. apply sound_after_just, sound_map_err_with_span, neat_sound.
  - apply neat_string_rest.
  - apply string_rest_inside.
Qed.

(** ** Words and items *)

Ltac quietly := apply quiet_sound.

Lemma sound_string : sound string_.
Proof.
  unfold string_. apply (sound_or t _ _ _ _ (needs_raw t) (needs_escaped t)).
  - intros c X Y. apply N.eqb_eq in X, Y. subst. discriminate.
  - apply quiet_sound; [apply low_raw_string|apply quiet_raw_string].
  - apply sound_escaped.
Qed.

Lemma sound_number : sound number.
Proof. apply quiet_sound; [apply b_number, from_place|apply quiet_number]. Qed.

Lemma sound_bare : sound bare_ident.
Proof. apply quiet_sound; [apply low_bare_ident|apply quiet_bare_ident]. Qed.

Lemma sound_ident : sound ident.
Proof.
  unfold ident. apply sound_try_map, sound_choice. foralls; apply sound_map; [apply sound_number|apply sound_bare|apply sound_string].
Qed.

Lemma sound_literal : sound literal_.
Proof.
  unfold literal_. apply sound_choice. foralls; [apply sound_map, sound_string| |apply sound_number].
  apply quiet_sound; [apply b_keyword, from_place|apply quiet_keyword].
Qed.

Lemma mute_tagged {A B C} (f : A + B -> span -> C + perror span) (p : parser A) (k k' : parser B) :
  (forall b s e, f (inr b) s <> inr e) -> quiet p -> mute (p_try_map f (p_choice [p_map inl p; p_map inr k; p_map inr k'])).
Proof.
  intros F Q ts e W O. apply try_map_err in O. destruct O as [(b & r & alt & e2 & Y & Z & ->)|Y]; [|exact (mute_choice t _ ts _ W Y)].
  unfold p_choice in Y. apply choice_ok in Y. apply Exists_exists in Y. destruct Y as (q & I & X & Y).
  unfold p_try_map. cbn [r_errs]. refine (eq_trans Y _). clear Y. destruct b as [a|b]; [|elim (F _ _ _ Z)].
  cbn [In] in I. destruct I as [<-|[<-|[<-|[]]]].
  - apply quiet_map, Q.
  - apply map_rest in X. destruct X as (x & _ & Y). discriminate.
  - apply map_rest in X. destruct X as (x & _ & Y). discriminate.
Qed.

Lemma mute_ident : mute ident.
Proof. unfold ident. apply mute_tagged; [discriminate|apply quiet_number]. Qed.

Lemma sound_type_name : sound type_name.
Proof.
  unfold type_name, p_delimited. apply sound_map, (sound_then_ignore t nowhere).
  - apply l_ignore_then; [apply from_place|apply l_just, from_place|apply low_ident].
  - apply (neat_ignore_then t nowhere); [apply l_just, from_place|apply neat_pl, l_just, pl_place|apply neat_ident|apply blocks_nowhere].
  - apply sound_after_just, sound_ident.
  - apply quiet_sound; [apply l_just, from_place|apply quiet_just].
  - intros ts _ [].
Qed.

Lemma sound_type_name_value : sound type_name_value.
Proof.
  unfold type_name_value. apply sound_map, sound_neat; [apply l_spanned, low_type_name|apply neat_spanned, neat_type_name| |].
  - apply sound_spanned, sound_type_name.
  - apply sound_spanned, sound_literal.
Qed.

Lemma sound_value : sound value_.
Proof.
  unfold value_. eapply sound_or; [apply needs_type_name_value|apply needs_map, needs_spanned, needs_literal| | |].
  - apply word_not. reflexivity.
  - apply sound_type_name_value.
  - apply sound_map, sound_spanned, sound_literal.
Qed.

Lemma low_value : okl from value_.
Proof. unfold value_. apply l_or; [apply from_place|apply low_type_name_value|apply l_map, l_spanned, low_literal]. Qed.

Lemma sound_opt_value : sound opt_value.
Proof.
  unfold opt_value. apply sound_or_not; [|apply sound_after_just, sound_value].
  apply l_ignore_then; [apply from_place|apply l_just, from_place|apply low_value].
Qed.

(** A word without a value is an error as wide as the word. *)
Lemma sound_lone {A B} (p : parser A) (k : parser B) : okl from p -> neat nowhere p -> quiet p -> eats 1 p ->
  okl from k -> sound k -> sound (p_validate (fun r s => (r, match snd r with
      | None => Some (EMessageHelp (Some "unexpected identifier"%string) s
                  "identifiers cannot be used as arguments"
                  "consider enclosing in double quotes ""..""")
      | Some _ => None
      end)) (p_then p (p_or_not k))).
Proof.
  intros L N Q E LK K ts b rest alt W O.
  assert (okl from (p_or_not k)) as LO by (apply l_or_not, LK).
  assert (sound (p_then p (p_or_not k))) as S.
  { apply sound_neat; [exact L|exact N|apply quiet_sound; assumption|apply sound_or_not; assumption]. }
  unfold p_validate in O |- *. destruct (r_out (p_then p (p_or_not k) ts)) as [[x v] r al|e] eqn:X; [|discriminate].
  destruct (S _ _ _ _ W X) as [I1 G1]. cbn [snd] in O |- *.
  assert (rest = r /\ alt = al) as [-> ->] by (cbn [r_out] in O; injection O as _ <- <-; auto). cbn [r_errs].
  destruct v as [v|]; [rewrite app_nil_r; split; assumption|].
  unfold p_then in X. pose proof X as X'. apply then_rest in X'. destruct X' as (r1 & al1 & al2 & O1 & O2 & Z). cbn [fst snd] in *.
  destruct (ok_wt _ _ _ _ _ _ L W O1) as [W1 _].
  assert (r1 = r /\ r_errs (p_or_not k r1) = []) as [-> Y].
  { unfold p_or_not in O2 |- *. destruct (r_out (k r1)) as [v' r' al'|e'] eqn:V.
    - discriminate.
    - injection O2 as <- <-. auto. }
  change (p_then p (p_or_not k)) with (p_bind p (fun _ => p_or_not k)).
  rewrite (bind_errs p (fun _ => p_or_not k) ts _ _ _ O1), (Q ts), Y. cbn [app].
  pose proof (E _ _ _ _ O1) as Lr.
  assert (inside (pos ts) (pos r) [Located (List.length r) (EMessageHelp (Some "unexpected identifier"%string)
        (span_since ts (List.length r)) "identifiers cannot be used as arguments"
                  "consider enclosing in double quotes ""..""")]) as J.
  { exists (pos ts), (pos r). rewrite (since_wt t ts) by (exact W || lia). split; [reflexivity|]. split; [lia|].
    split; [|cbn; lia]. apply pos_strict; [lia|]. apply wt_len, W. }
  split; [exact J|]. rewrite Z. destruct (merge_alts al1 al2) as [al3 c] eqn:M. cbn [fst].
  eapply merge_alts_with; [apply good_respects|exact M| |].
  - destruct (N _ _ _ _ W O1) as [P|[]]. destruct al1; [left; exact P|exact I].
  - pose proof (low_alt t _ _ _ _ _ LO W1 O2) as F. destruct al2 as [l|]; [|exact I]. right.
    eapply inside_snoc; [exact J|]. apply lo_from, F.
Qed.

Lemma sound_inner : sound prop_or_arg_inner.
Proof.
  unfold prop_or_arg_inner. apply sound_choice. foralls.
  - apply sound_try_map, sound_neat; [apply l_spanned, low_literal|apply neat_spanned, neat_literal|apply sound_spanned, sound_literal|apply sound_opt_value].
  - apply sound_map. unfold ident_item_check, opt_value. apply sound_lone.
    + apply l_spanned, low_bare_ident.
    + apply neat_spanned, neat_bare.
    + apply quiet_map_with_span, quiet_bare_ident.
    + apply eats_spanned, eats_bare_ident.
    + apply l_ignore_then; [apply from_place|apply l_just, from_place|apply low_value].
    + apply sound_after_just, sound_value.
  - apply sound_map, sound_type_name_value.
Qed.

Lemma mute_inner : mute prop_or_arg_inner.
Proof. apply mute_choice. Qed.

Lemma quiet_begin_spaces : quiet (Sp := span) (p_ignore_then (begin_comment 0x2D%N) (p_repeated node_space)).
Proof. apply quiet_ignore_then; [apply quiet_begin_comment|apply quiet_repeated, quiet_node_space]. Qed.

Lemma mute_prop_or_arg : mute prop_or_arg.
Proof.
  unfold prop_or_arg. apply mute_or; [|apply mute_inner]. apply mute_map, mute_map, mute_bind.
  - apply low_begin_spaces.
  - apply quiet_begin_spaces.
  - intros _. apply mute_inner.
Qed.

Lemma blocked_errs {A} (G : toks -> Prop) (p : parser A) : mute p -> blocks G p -> forall ts, wt ts -> G ts -> r_errs (p ts) = [].
Proof. intros M B ts W X. destruct (B ts W X) as [e O]. exact (M ts e W O). Qed.

Lemma sound_prop_or_arg : sound prop_or_arg.
Proof.
  unfold prop_or_arg. eapply (sound_or t (is_c 0x2F%N) itemb).
  - apply needs_map, needs_ignore_then, needs_ignore_then, needs_begin.
  - apply needs_inner.
  - apply item_not. reflexivity.
  - apply sound_map, (sound_ignore_then t (stuck node_space)); [apply low_begin_spaces|apply neat_begin_spaces| |apply sound_inner|].
    + apply quiet_sound; [apply low_begin_spaces|apply quiet_begin_spaces].
    + apply blocked_errs; [apply mute_inner|]. apply (blocks_spaces t itemb); [apply needs_inner|apply sp_item].
  - apply sound_inner.
Qed.

End OrderText.
