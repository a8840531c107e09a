(** The errors a parser emits on its way: each has one place, they are in the
    order of the text, they lie in what was read, and before the error with which
    the parser ends. *)

From Coq Require Import NArith PeanoNat List Bool String Lia.
From Verif Require Import Chars Ast Errors Chumsky Spans Grammar Safe GrammarSafe GrammarNear SpanProps ErrSpec ErrAt ErrGrammar
  OrderSpec OrderCalc OrderLow OrderStuck OrderNeat.
Import ListNotations.
Local Open Scope list_scope.

Local Strategy 100 [p_filter p_just p_just_str p_end p_filter_map p_map p_ignored p_map_with_span p_map_err p_map_err_with_span
  p_try_map p_validate p_bind p_then p_ignore_then p_then_ignore p_delimited p_or p_choice p_or_not p_rewind p_repeat p_repeated
  p_exactly p_take_until p_recover_skip_until p_separated p_spanned ml_comment_rec nodes_rec span_since ErrAt.E].

Section OrderEmit.
Variable t : text.

#[local] Hint Extern 0 (env span) => exact (ErrAt.E t) : typeclass_instances.

Notation parser := (Chumsky.parser span).
Notation located := (Chumsky.located span).
Notation toks := (Chumsky.toks span).
Notation pos_rem := (OrderCalc.pos_rem t).
Notation pos := (OrderCalc.pos t).
Notation wt := (OrderCalc.wt t).
Notation from := (OrderCalc.from t).
Notation pl := (OrderCalc.pl t).
Notation plain := (OrderCalc.plain t).
Notation okl := (OrderCalc.okl t).
Notation neat := (OrderStuck.neat t).
Notation blocks := (OrderStuck.blocks t).
Notation stuck := (OrderStuck.stuck t).
Notation needs := (OrderStuck.needs t).

(** ** Lists of errors between two places *)

Fixpoint inside (n m : nat) (errs : list located) : Prop :=
  match errs with
  | [] => n <= m
  | e :: errs' => exists a b, perror_spans (l_err e) = [Span a b] /\ n <= a /\ a < b /\ inside b m errs'
  end.

Lemma inside_le n m errs : inside n m errs -> n <= m.
Proof.
  revert n. induction errs as [|e errs IH]; intros n H; cbn in H; [exact H|].
  destruct H as (a & b & _ & A & B & H). apply IH in H. lia.
Qed.

Lemma inside_app n k m l l' : inside n k l -> inside k m l' -> inside n m (l ++ l').
Proof.
  revert n. induction l as [|e l IH]; intros n H H'; cbn in H |- *.
  - destruct l' as [|e' l']; cbn in H' |- *; [lia|]. destruct H' as (a & b & X & A & H'). exists a, b. split; [exact X|]. split; [lia|exact H'].
  - destruct H as (a & b & X & A & B & H). exists a, b. auto.
Qed.

Lemma inside_mono n n' m m' l : inside n m l -> n' <= n -> m <= m' -> inside n' m' l.
Proof.
  revert n n'. induction l as [|e l IH]; intros n n' H N M; cbn in H |- *; [lia|].
  destruct H as (a & b & X & A & B & H). exists a, b. split; [exact X|]. split; [lia|]. split; [exact B|].
  eapply IH; [exact H|lia|exact M].
Qed.

Lemma inside_snoc n m l : inside n m l -> forall k, m <= k -> inside n k l.
Proof. intros H k K. eapply inside_mono; [exact H| |exact K]. lia. Qed.

(** How far errors may come before an error. *)
Definition lo (l : located) : nat := Nat.min (starts (l_err l)) (pos_rem (l_rem l)).

Lemma lo_same a b : same a b -> lo a = lo b.
Proof. intros [R S]. unfold lo, starts. rewrite R, S. reflexivity. Qed.

Lemma lo_plain l : plain l -> lo l = pos_rem (l_rem l).
Proof. intros P. unfold lo. rewrite (plain_starts t l P). apply Nat.min_id. Qed.

Lemma lo_from n l : from n l -> pos_rem n <= lo l.
Proof. intros [R S]. unfold lo. pose proof (pos_mono t _ _ R). lia. Qed.

Lemma lo_at l : lo l <= pos_rem (l_rem l).
Proof. unfold lo. lia. Qed.

(** An error that is kept aside comes after the errors emitted, unless it is
    plain. *)
Definition good (n : nat) (errs : list located) (l : located) : Prop := plain l \/ inside n (lo l) errs.

Lemma good_respects n errs : respects (good n errs).
Proof.
  intros a b S [H|H]; [left; eapply same_plain; eassumption|right]. rewrite (lo_same a b S). exact H.
Qed.

Definition sound {A} (p : parser A) : Prop := forall ts a rest alt, wt ts -> r_out (p ts) = Ok a rest alt ->
  inside (pos ts) (pos rest) (r_errs (p ts)) /\ opt (good (pos ts) (r_errs (p ts))) alt.

Definition ended {A} (p : parser A) : Prop := forall ts e, wt ts -> r_out (p ts) = Err e ->
  inside (pos ts) (lo e) (r_errs (p ts)).

Definition mute {A} (p : parser A) : Prop := forall ts e, wt ts -> r_out (p ts) = Err e -> r_errs (p ts) = [].

Lemma low_err {A} (p : parser A) ts e : okl from p -> wt ts -> r_out (p ts) = Err e -> from (List.length ts) e.
Proof. intros L W O. destruct (L ts W) as [H _]. rewrite O in H. exact H. Qed.

Lemma low_alt {A} (p : parser A) ts a rest alt : okl from p -> wt ts -> r_out (p ts) = Ok a rest alt -> opt (from (List.length ts)) alt.
Proof. intros L W O. destruct (L ts W) as [H _]. rewrite O in H. apply H. Qed.

Lemma ok_pos {A} (p : parser A) ts a rest alt : okl from p -> wt ts -> r_out (p ts) = Ok a rest alt -> pos ts <= pos rest.
Proof. intros L W O. apply pos_mono. eapply ok_wt; eassumption. Qed.

Lemma mute_ended {A} (p : parser A) : okl from p -> mute p -> ended p.
Proof.
  intros L M ts e W O. rewrite (M ts e W O). cbn. apply lo_from. eapply low_err; eassumption.
Qed.

Lemma quiet_sound {A} (p : parser A) : okl from p -> quiet p -> sound p.
Proof.
  intros L Q ts a rest alt W O. rewrite (Q ts). split; [cbn; eapply ok_pos; eassumption|].
  pose proof (low_alt _ _ _ _ _ L W O) as F. destruct alt as [l|]; [|exact I]. right. apply lo_from, F.
Qed.

Lemma quiet_mute {A} (p : parser A) : quiet p -> mute p.
Proof. intros Q ts e W O. apply Q. Qed.

Lemma quiet_ended {A} (p : parser A) : okl from p -> quiet p -> ended p.
Proof. intros L Q. apply mute_ended; [exact L|apply quiet_mute, Q]. Qed.

(** When nothing bad is left behind, only what is emitted matters. *)
Lemma neat_sound {A} (p : parser A) : neat nowhere p ->
  (forall ts a rest alt, wt ts -> r_out (p ts) = Ok a rest alt -> inside (pos ts) (pos rest) (r_errs (p ts))) -> sound p.
Proof.
  intros N H ts a rest alt W O. split; [eapply H; eassumption|].
  destruct (N _ _ _ _ W O) as [P|[]]. destruct alt; [left; exact P|exact I].
Qed.

Lemma sound_map {A B} (f : A -> B) p : sound p -> sound (p_map f p).
Proof. intros S ts b rest alt W O. apply map_rest in O. destruct O as (a & O & _). exact (S ts a rest alt W O). Qed.

Lemma ended_map {A B} (f : A -> B) p : ended p -> ended (p_map f p).
Proof. intros S ts e W O. apply map_err_out in O. exact (S ts e W O). Qed.

Lemma mute_map {A B} (f : A -> B) p : mute p -> mute (p_map f p).
Proof. intros S ts e W O. apply map_err_out in O. exact (S ts e W O). Qed.

Lemma sound_spanned {A} (p : parser A) : sound p -> sound (p_spanned p).
Proof.
  intros S ts b rest alt W O. unfold p_spanned, p_map_with_span in O |- *. cbn [r_out r_errs] in O |- *.
  destruct (r_out (p ts)) as [a r al|e] eqn:X; [|discriminate]. injection O as _ <- <-. eapply S; eassumption.
Qed.

Lemma ended_spanned {A} (p : parser A) : ended p -> ended (p_spanned p).
Proof.
  intros S ts e W O. unfold p_spanned, p_map_with_span in O |- *. cbn [r_out r_errs] in O |- *.
  destruct (r_out (p ts)) as [a r al|e'] eqn:X; [discriminate|]. injection O as <-. eapply S; eassumption.
Qed.

Lemma mute_spanned {A} (p : parser A) : mute p -> mute (p_spanned p).
Proof.
  intros S ts e W O. unfold p_spanned, p_map_with_span in O |- *. cbn [r_out r_errs] in O |- *.
  destruct (r_out (p ts)) as [a r al|e'] eqn:X; [discriminate|]. injection O as <-. eapply S; eassumption.
Qed.

Lemma sound_try_map {A B} (f : A -> span -> B + perror span) p : sound p -> sound (p_try_map f p).
Proof.
  intros S ts b rest alt W O. unfold p_try_map in O |- *. cbn [r_out r_errs] in O |- *.
  destruct (r_out (p ts)) as [a r al|e] eqn:X; [|discriminate]. destruct (f _ _); [|discriminate].
  injection O as _ <- <-. eapply S; eassumption.
Qed.

Lemma sound_map_err_with_span {A} f (p : parser A) : sound p -> sound (p_map_err_with_span f p).
Proof.
  intros S ts b rest alt W O. unfold p_map_err_with_span in O |- *.
  destruct (r_out (p ts)) as [a r al|e] eqn:X.
  - rewrite X in O. injection O as _ <- <-. eapply S; eassumption.
  - destruct (f _ _); discriminate.
Qed.

(** ** Sequences *)

Lemma bind_errs {A B} (p : parser A) (k : A -> parser B) ts a rest alt : r_out (p ts) = Ok a rest alt ->
  r_errs (p_bind p k ts) = r_errs (p ts) ++ r_errs (k a rest).
Proof.
  intros O. unfold p_bind. rewrite O. destruct (r_out (k a rest)); [destruct (merge_alts alt _)|destruct (lmax_opt _ alt)]; reflexivity.
Qed.

Lemma bind_errs_err {A B} (p : parser A) (k : A -> parser B) ts e : r_out (p ts) = Err e ->
  r_errs (p_bind p k ts) = r_errs (p ts).
Proof. intros O. unfold p_bind. rewrite O. reflexivity. Qed.

Lemma sound_bind {A B} (G : toks -> Prop) (p : parser A) (k : A -> parser B) : okl from p -> neat G p -> sound p ->
  (forall a, sound (k a)) -> (forall a ts, wt ts -> G ts -> r_errs (k a ts) = []) -> sound (p_bind p k).
Proof.
  intros L N S K C ts ab rest alt W O. pose proof O as O'. apply then_rest in O. destruct O as (r1 & al1 & al2 & O1 & O2 & ->).
  rewrite (bind_errs p k ts _ _ _ O1).
  destruct (ok_wt _ _ _ _ _ _ L W O1) as [W1 _].
  destruct (S _ _ _ _ W O1) as [I1 G1]. destruct (K _ _ _ _ _ W1 O2) as [I2 G2].
  split; [eapply inside_app; eassumption|].
  destruct (merge_alts al1 al2) as [al c] eqn:M. cbn [fst].
  eapply merge_alts_with; [apply good_respects|exact M| |].
  - destruct al1 as [l|]; [|exact I]. cbn in G1 |- *. destruct G1 as [P|G1]; [left; exact P|].
    destruct (N _ _ _ _ W O1) as [P|X]; [left; exact P|]. right. rewrite (C _ _ W1 X), app_nil_r. exact G1.
  - destruct al2 as [l|]; [|exact I]. cbn in G2 |- *. destruct G2 as [P|G2]; [left; exact P|].
    right. eapply inside_app; eassumption.
Qed.

Lemma ended_bind {A B} (G : toks -> Prop) (p : parser A) (k : A -> parser B) : okl from p -> neat G p -> sound p -> ended p ->
  (forall a, ended (k a)) -> (forall a ts, wt ts -> G ts -> r_errs (k a ts) = []) -> ended (p_bind p k).
Proof.
  intros L N S F K C ts e W O. destruct (r_out (p ts)) as [a r1 al1|e0] eqn:O1.
  - rewrite (bind_errs p k ts _ _ _ O1). unfold p_bind in O. rewrite O1 in O.
    destruct (ok_wt _ _ _ _ _ _ L W O1) as [W1 _]. destruct (S _ _ _ _ W O1) as [I1 G1].
    destruct (r_out (k a r1)) as [b r2 al2|e2] eqn:O2; [destruct (merge_alts al1 al2); discriminate|].
    pose proof (K _ _ _ W1 O2) as I2.
    assert (inside (pos ts) (lo e2) (r_errs (p ts) ++ r_errs (k a r1))) as J by (eapply inside_app; eassumption).
    destruct (lmax_opt e2 al1) as [e3 c] eqn:M. injection O as ->.
    destruct al1 as [l|]; cbn in M; [|injection M as <- _; exact J].
    destruct (lmax_pick _ _ _ _ M) as [[Q _]|[Q Le]]; [rewrite (lo_same _ _ Q); exact J|].
    cbn in G1. assert (plain l \/ inside (pos ts) (lo l) (r_errs (p ts)) /\ G r1) as [P|[G2 X]].
    { destruct G1 as [P|G1]; [left; exact P|]. destruct (N _ _ _ _ W O1) as [P|X]; [left; exact P|right; auto]. }
    + rewrite (lo_same _ _ Q), (lo_plain _ P). eapply inside_snoc; [exact J|].
      pose proof (lo_at e2). pose proof (pos_mono t _ _ Le). lia.
    + rewrite (lo_same _ _ Q), (C _ _ W1 X), app_nil_r. exact G2.
  - rewrite (bind_errs_err p k ts _ O1). unfold p_bind in O. rewrite O1 in O. injection O as <-. exact (F _ _ W O1).
Qed.

Lemma mute_bind {A B} (p : parser A) (k : A -> parser B) : okl from p -> quiet p -> (forall a, mute (k a)) -> mute (p_bind p k).
Proof.
  intros L Q M ts e W O. destruct (r_out (p ts)) as [a r1 al1|e0] eqn:O1.
  - rewrite (bind_errs p k ts _ _ _ O1), (Q ts). unfold p_bind in O. rewrite O1 in O.
    destruct (ok_wt _ _ _ _ _ _ L W O1) as [W1 _].
    destruct (r_out (k a r1)) as [b r2 al2|e2] eqn:O2; [destruct (merge_alts al1 al2); discriminate|]. exact (M _ _ _ W1 O2).
  - rewrite (bind_errs_err p k ts _ O1). apply Q.
Qed.

Lemma sound_then {A B} (G : toks -> Prop) (p : parser A) (k : parser B) : okl from p -> neat G p -> sound p ->
  sound k -> (forall ts, wt ts -> G ts -> r_errs (k ts) = []) -> sound (p_then p k).
Proof. intros L N S K C. apply (sound_bind G p (fun _ => k)); auto. Qed.

Lemma ended_then {A B} (G : toks -> Prop) (p : parser A) (k : parser B) : okl from p -> neat G p -> sound p -> ended p ->
  ended k -> (forall ts, wt ts -> G ts -> r_errs (k ts) = []) -> ended (p_then p k).
Proof. intros L N S F K C. apply (ended_bind G p (fun _ => k)); auto. Qed.

(** Sequences where the first part leaves nothing bad behind. *)
Lemma sound_neat {A B} (p : parser A) (k : parser B) : okl from p -> neat nowhere p -> sound p -> sound k -> sound (p_then p k).
Proof. intros L N S K. apply (sound_then nowhere); auto. intros ts _ []. Qed.

Lemma sound_ignore_then {A B} (G : toks -> Prop) (p : parser A) (k : parser B) : okl from p -> neat G p -> sound p ->
  sound k -> (forall ts, wt ts -> G ts -> r_errs (k ts) = []) -> sound (p_ignore_then p k).
Proof. intros L N S K C. apply sound_map. eapply sound_then; eassumption. Qed.

Lemma sound_then_ignore {A B} (G : toks -> Prop) (p : parser A) (k : parser B) : okl from p -> neat G p -> sound p ->
  sound k -> (forall ts, wt ts -> G ts -> r_errs (k ts) = []) -> sound (p_then_ignore p k).
Proof. intros L N S K C. apply sound_map. eapply sound_then; eassumption. Qed.

(** An opening character first. *)
Lemma sound_after_just {A} x (k : parser A) : sound k -> sound (p_ignore_then (p_just x) k).
Proof.
  intros K. apply (sound_ignore_then nowhere); [apply l_just, from_place|apply neat_pl, l_just, pl_place| |exact K|intros ts _ []].
  apply quiet_sound; [apply l_just, from_place|apply quiet_just].
Qed.

(** ** Choices *)

Lemma choice_ok {A} (ps : list (parser A)) : forall alt0 ts a rest alt, r_out (p_choice_from alt0 ps ts) = Ok a rest alt ->
  Exists (fun p => r_out (p ts) = Ok a rest alt /\ r_errs (p_choice_from alt0 ps ts) = r_errs (p ts)) ps.
Proof.
  induction ps as [|p ps IH]; intros alt0 ts a rest alt O; cbn [p_choice_from] in O |- *; [destruct alt0; discriminate|].
  destruct (r_out (p ts)) as [a' r al'|e0] eqn:X.
  - left. rewrite X in O. injection O as <- <- <-. auto.
  - destruct (merge_alts alt0 (Some e0)) as [alt' c]. right. exact (IH alt' ts a rest alt O).
Qed.

Lemma choice_mute {A} (ps : list (parser A)) : forall alt0 ts e, r_out (p_choice_from alt0 ps ts) = Err e ->
  r_errs (p_choice_from alt0 ps ts) = [].
Proof.
  induction ps as [|p ps IH]; intros alt0 ts e O; cbn [p_choice_from] in O |- *; [destruct alt0; reflexivity|].
  destruct (r_out (p ts)) as [a' r al'|e0] eqn:X; [congruence|].
  destruct (merge_alts alt0 (Some e0)) as [alt' c]. exact (IH alt' ts e O).
Qed.

Lemma mute_choice {A} (ps : list (parser A)) : mute (p_choice ps).
Proof. intros ts e W. apply choice_mute. Qed.

Lemma sound_choice {A} (ps : list (parser A)) : Forall sound ps -> sound (p_choice ps).
Proof.
  intros H ts a rest alt W O. apply choice_ok in O. apply Exists_exists in O. destruct O as (p & I & O & E).
  unfold p_choice. rewrite E. rewrite Forall_forall in H. exact (H p I ts a rest alt W O).
Qed.

Lemma sound_or {A} f g (p k : parser A) : needs f p -> needs g k -> (forall c, f c = true -> g c = true -> False) ->
  sound p -> sound k -> sound (p_or p k).
Proof.
  intros NP NK D P K ts b rest alt W.
  assert (forall a rest alt, r_out (p ts) = Ok a rest alt -> exists e, r_out (k ts) = Err e /\ plain e) as X1.
  { intros a r al O. pose proof (needs_ok t _ _ _ _ _ _ NP W O) as F. apply NK; [exact W|]. exact (apart _ _ D ts F). }
  assert (forall a rest alt, r_out (k ts) = Ok a rest alt -> exists e, r_out (p ts) = Err e /\ plain e) as X2.
  { intros a r al O. pose proof (needs_ok t _ _ _ _ _ _ NK W O) as F. apply NP; [exact W|].
    intros Y. exact (apart _ _ D ts Y F). }
  destruct (p_or_cases p k ts) as
    [(a & r & al & He & Ho & X)
    |[_ [(a & r & al & alt' & c & Ho & He & M & X)
        |[(a & r & al & alt' & c & Ho & M & X)
         |(ea & eb & Ha & Hb & [[X _]|[[X _]|(e' & c & M & Le & X)]])]]]]; rewrite X; cbn [r_out r_errs]; try discriminate.
  - rewrite Ho. intros [= <- <- <-]. eapply P; eassumption.
  - intros [= <- <- <-]. destruct (P _ _ _ _ W Ho) as [I1 G1]. split; [exact I1|].
    eapply merge_alts_with; [apply good_respects|exact M|exact G1|].
    destruct (X1 _ _ _ Ho) as (e & O2 & Pe). rewrite O2. left. exact Pe.
  - intros [= <- <- <-]. destruct (K _ _ _ _ W Ho) as [I1 G1]. split; [exact I1|].
    eapply merge_alts_with; [apply good_respects|exact M|exact G1|].
    destruct (X2 _ _ _ Ho) as (e & O2 & Pe). rewrite O2. left. exact Pe.
Qed.

Lemma mute_or {A} (p k : parser A) : mute p -> mute k -> mute (p_or p k).
Proof.
  intros P K ts e W.
  destruct (p_or_cases p k ts) as
    [(a & r & al & He & Ho & X)
    |[_ [(a & r & al & alt' & c & Ho & He & M & X)
        |[(a & r & al & alt' & c & Ho & M & X)
         |(ea & eb & Ha & Hb & [[X _]|[[X _]|(e' & c & M & Le & X)]])]]]]; rewrite X; cbn [r_out r_errs]; try congruence;
    intros _; first [exact (P _ _ W Ha)|exact (K _ _ W Hb)].
Qed.

Lemma sound_or_not {A} (p : parser A) : okl from p -> sound p -> sound (p_or_not p).
Proof.
  intros L S ts a rest alt W O. unfold p_or_not in O |- *. destruct (r_out (p ts)) as [a' r al|e] eqn:X.
  - cbn [r_out r_errs] in O |- *. injection O as _ <- <-. eapply S; eassumption.
  - cbn [r_out r_errs] in O |- *. injection O as _ <- <-. split; [cbn; lia|]. right. apply lo_from. eapply low_err; eassumption.
Qed.

Lemma or_not_mute {A} (p : parser A) : mute (p_or_not p).
Proof. intros ts e W O. unfold p_or_not in O. destruct (r_out (p ts)); discriminate. Qed.

(** ** Repetition *)

Lemma sound_repeat_loop {A} (G : toks -> Prop) (p : parser A) : okl from p -> neat G p -> blocks G p -> sound p ->
  forall fuel n errs outs alt old cr ts, wt ts -> inside n (pos ts) errs -> opt (good n errs) alt -> opt plain alt \/ G ts ->
  forall o rest alt', r_out (repeat_loop fuel p 0 None errs outs alt old cr ts) = Ok o rest alt' ->
  inside n (pos rest) (r_errs (repeat_loop fuel p 0 None errs outs alt old cr ts))
  /\ opt (good n (r_errs (repeat_loop fuel p 0 None errs outs alt old cr ts))) alt'.
Proof.
  intros L N C S. induction fuel as [|fuel IH]; intros n errs outs alt old cr ts W I1 A1 H o rest alt'; cbn [repeat_loop].
  - cbn. intros [= <- <- <-]. tauto.
  - destruct (r_out (p ts)) as [a r al|e] eqn:X.
    + destruct H as [H|H]; [|destruct (C ts W H) as [e Y]; congruence].
      destruct (ok_wt _ _ _ _ _ _ L W X) as [W1 _].
      destruct (S _ _ _ _ W X) as [I2 A2].
      assert (inside n (pos r) (errs ++ r_errs (p ts))) as I3 by (eapply inside_app; eassumption).
      destruct (merge_alts alt al) as [al2 c] eqn:M.
      assert (opt (good n (errs ++ r_errs (p ts))) al2) as A3.
      { eapply merge_alts_with; [apply good_respects|exact M| |].
        - destruct alt; [left; exact H|exact I].
        - destruct al as [l|]; [|exact I]. destruct A2 as [A2|A2]; [left; exact A2|right]. eapply inside_app; eassumption. }
      assert (opt plain al2 \/ G r) as H2.
      { destruct (N _ _ _ _ W X) as [Q|Q]; [left|right; exact Q].
        eapply merge_alts_with; [apply plain_respects|exact M|exact H|exact Q]. }
      destruct (match old with Some o => o =? List.length r | None => false end).
      * cbn [r_out r_errs]. intros [= <- <- <-]. tauto.
      * apply IH; assumption.
    + cbn [Nat.ltb Nat.leb]. destruct (merge_alts alt (Some e)) as [al2 c] eqn:M.
      cbn [r_out r_errs]. intros [= <- <- <-]. split; [exact I1|].
      eapply merge_alts_with; [apply good_respects|exact M|exact A1|]. right.
      eapply inside_snoc; [exact I1|]. apply lo_from. eapply low_err; eassumption.
Qed.

Lemma sound_repeated {A} (G : toks -> Prop) (p : parser A) : okl from p -> neat G p -> blocks G p -> sound p -> sound (p_repeated p).
Proof.
  intros L N C S ts a rest alt W O. unfold p_repeated, p_repeat in *.
  refine (sound_repeat_loop G p L N C S _ (pos ts) [] [] None None [] ts W _ I (or_introl I) _ _ _ O). cbn. lia.
Qed.

End OrderEmit.
