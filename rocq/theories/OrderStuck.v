(** Errors that are not shown where they happen, and why nothing can be read
    after a parser that leaves one behind.

    An error is plain when it is shown at the character where the parser failed.
    The others are those of something not closed, and of a name that was read and
    then refused.  When a parser succeeds and leaves such an error behind as an
    alternative, the text that follows cannot be read on. *)

From Coq Require Import NArith PeanoNat List Bool String Lia.
From Verif Require Import Chars Ast Errors Chumsky Spans Grammar Safe GrammarSafe GrammarNear SpanProps ErrSpec ErrAt ErrGrammar
  OrderSpec OrderCalc OrderLow.
Import ListNotations.
Local Open Scope list_scope.

Section OrderStuck.
Variable t : text.

#[local] Hint Extern 0 (env span) => exact (ErrAt.E t) : typeclass_instances.

Notation parser := (Chumsky.parser span).
Notation located := (Chumsky.located span).
Notation toks := (Chumsky.toks span).
Notation pos_rem := (OrderCalc.pos_rem t).
Notation pos := (OrderCalc.pos t).
Notation wt := (OrderCalc.wt t).
Notation from := (OrderCalc.from t).
Notation pl := (OrderCalc.pl t).
Notation plain := (OrderCalc.plain t).
Notation okl := (OrderCalc.okl t).

Definition nowhere (ts : toks) : Prop := False.

(** What a success leaves behind is plain, or the rest satisfies [G]. *)
Definition neat {A} (G : toks -> Prop) (p : parser A) : Prop := forall ts a rest alt, wt ts ->
  r_out (p ts) = Ok a rest alt -> opt plain alt \/ G rest.

(** The parser reads nothing where [G] holds. *)
Definition blocks {A} (G : toks -> Prop) (p : parser A) : Prop := forall ts, wt ts -> G ts ->
  exists e, r_out (p ts) = Err e.

(** The parser fails with an error that is not plain. *)
Definition stuck {A} (p : parser A) (ts : toks) : Prop := exists e, r_out (p ts) = Err e /\ ~ plain e.

Definition first (f : char -> bool) (ts : toks) : Prop := exists c s ts', ts = (c, s) :: ts' /\ f c = true.

(** The parser reads nothing unless the first character is one of [f], and says
    so plainly. *)
Definition needs {A} (f : char -> bool) (p : parser A) : Prop := forall ts, wt ts -> ~ first f ts ->
  exists e, r_out (p ts) = Err e /\ plain e.

Lemma first_dec f ts : first f ts \/ ~ first f ts.
Proof.
  destruct ts as [|[c s] ts]; [right; intros (? & ? & ? & X & _); discriminate|].
  destruct (f c) eqn:F; [left; exists c, s, ts; auto|].
  right. intros (c' & s' & ts' & X & K). injection X as <- <- <-. congruence.
Qed.

(** ** Which characters can come first *)

Lemma needs_ok {A} f (p : parser A) ts a rest alt : needs f p -> wt ts -> r_out (p ts) = Ok a rest alt -> first f ts.
Proof.
  intros N W O. destruct (first_dec f ts) as [F|F]; [exact F|]. destruct (N ts W F) as (e & X & _). congruence.
Qed.

Lemma needs_stuck {A} f (p : parser A) ts : needs f p -> wt ts -> stuck p ts -> first f ts.
Proof.
  intros N W (e & O & P). destruct (first_dec f ts) as [F|F]; [exact F|]. destruct (N ts W F) as (e' & X & Q). congruence.
Qed.

Lemma needs_more {A} (f g : char -> bool) (p : parser A) : (forall c, f c = true -> g c = true) -> needs f p -> needs g p.
Proof.
  intros I N ts W F. apply N; [exact W|]. intros (c & s & ts' & X & K). apply F. exists c, s, ts'. auto.
Qed.

Lemma plain_unexpected ts x : wt ts -> plain (unexpected ts x).
Proof. intros W. apply unexpected_plain, W. Qed.

Lemma needs_just (f : char -> bool) x : f x = true -> needs f (p_just x).
Proof.
  intros K ts W F. destruct ts as [|[c s] ts]; cbn [p_just]; [eexists; split; [reflexivity|apply plain_unexpected, W]|].
  destruct (N.eqb_spec c x) as [->|_]; [exfalso; apply F; exists x, s, ts; auto|].
  eexists; split; [reflexivity|apply plain_unexpected, W].
Qed.

Lemma needs_filter (f g : char -> bool) : (forall c, g c = true -> f c = true) -> needs f (p_filter g).
Proof.
  intros K ts W F. destruct ts as [|[c s] ts]; cbn [p_filter]; [eexists; split; [reflexivity|apply plain_unexpected, W]|].
  destruct (g c) eqn:X; [exfalso; apply F; exists c, s, ts; auto|].
  eexists; split; [reflexivity|apply plain_unexpected, W].
Qed.

Lemma needs_just_str (f : char -> bool) x s : f x = true -> needs f (p_just_str (x :: s)).
Proof.
  intros K ts W F. destruct ts as [|[c sp] ts]; cbn [p_just_str]; [eexists; split; [reflexivity|apply plain_unexpected, W]|].
  destruct (N.eqb_spec c x) as [->|_]; [exfalso; apply F; exists x, sp, ts; auto|].
  eexists; split; [reflexivity|apply plain_unexpected, W].
Qed.

Lemma needs_map {A B} f (g : A -> B) p : needs f p -> needs f (p_map g p).
Proof. intros N ts W F. destruct (N ts W F) as (e & O & P). exists e. unfold p_map. cbn [r_out]. rewrite O. auto. Qed.

Lemma needs_ignored {A} f (p : parser A) : needs f p -> needs f (p_ignored p).
Proof. apply needs_map. Qed.

Lemma needs_spanned {A} f (p : parser A) : needs f p -> needs f (p_spanned p).
Proof.
  intros N ts W F. destruct (N ts W F) as (e & O & P). exists e. unfold p_spanned, p_map_with_span. cbn [r_out].
  rewrite O. auto.
Qed.

Lemma needs_map_err {A} f g (p : parser A) : (forall e, perror_spans (g e) = perror_spans e) ->
  needs f p -> needs f (p_map_err g p).
Proof.
  intros G N ts W F. destruct (N ts W F) as (e & O & P). eexists. unfold p_map_err. cbn [r_out]. rewrite O.
  split; [reflexivity|]. eapply same_plain; [|exact P]. split; [reflexivity|apply G].
Qed.

Lemma needs_try_map {A B} f (g : A -> span -> B + perror span) p : needs f p -> needs f (p_try_map g p).
Proof.
  intros N ts W F. destruct (N ts W F) as (e & O & P). exists e. unfold p_try_map. cbn [r_out]. rewrite O. auto.
Qed.

Lemma needs_validate {A B} f (g : A -> span -> B * option (perror span)) p : needs f p -> needs f (p_validate g p).
Proof.
  intros N ts W F. destruct (N ts W F) as (e & O & P). exists e. unfold p_validate. rewrite O. auto.
Qed.

Lemma needs_bind {A B} f (p : parser A) (k : A -> parser B) : needs f p -> needs f (p_bind p k).
Proof.
  intros N ts W F. destruct (N ts W F) as (e & O & P). exists e. unfold p_bind. rewrite O. auto.
Qed.

Lemma needs_then {A B} f (p : parser A) (k : parser B) : needs f p -> needs f (p_then p k).
Proof. apply needs_bind. Qed.

Lemma needs_ignore_then {A B} f (p : parser A) (k : parser B) : needs f p -> needs f (p_ignore_then p k).
Proof. intros N. apply needs_map, needs_then, N. Qed.

Lemma needs_then_ignore {A B} f (p : parser A) (k : parser B) : needs f p -> needs f (p_then_ignore p k).
Proof. intros N. apply needs_map, needs_then, N. Qed.

Lemma needs_delimited {A B C} f (p : parser A) (o : parser B) (c : parser C) : needs f o -> needs f (p_delimited p o c).
Proof. intros N. apply needs_then_ignore, needs_ignore_then, N. Qed.

(** After something optional. *)
Lemma needs_opt {A B} f (p : parser A) (k : parser B) : needs f p -> needs f k -> needs f (p_then (p_or_not p) k).
Proof.
  intros N K ts W F. destruct (N ts W F) as (e & O & P). destruct (K ts W F) as (e2 & O2 & P2).
  unfold p_then, p_bind, p_or_not. rewrite O. cbn [r_out]. rewrite O2. cbn [lmax_opt].
  destruct (lmax e2 e) as [e3 c] eqn:M. exists e3. split; [reflexivity|].
  eapply lmax_with; [apply plain_respects|exact M|exact P2|exact P].
Qed.

Lemma needs_or {A} f (p k : parser A) : needs f p -> needs f k -> needs f (p_or p k).
Proof.
  intros N K ts W F. destruct (N ts W F) as (e & O & P). destruct (K ts W F) as (e2 & O2 & P2).
  destruct (p_or_cases p k ts) as
    [(a & rest & alt & He & Ho & X)
    |[_ [(a & rest & alt & alt' & c & Ho & He & M & X)
        |[(a & rest & alt & alt' & c & Ho & M & X)
         |(ea & eb & Ha & Hb & [[X _]|[[X _]|(e' & c & M & Le & X)]])]]]]; try congruence; rewrite X; cbn [r_out].
  - exists ea. split; [reflexivity|congruence].
  - exists eb. split; [reflexivity|congruence].
  - exists e'. split; [reflexivity|]. rewrite O in Ha. rewrite O2 in Hb. injection Ha as <-. injection Hb as <-.
    eapply lmax_with; [apply plain_respects|exact M|exact P|exact P2].
Qed.

Lemma needs_choice_from {A} f (ps : list (parser A)) : Forall (needs f) ps -> forall alt ts, wt ts -> ~ first f ts ->
  opt plain alt -> exists e, r_out (p_choice_from alt ps ts) = Err e /\ plain e.
Proof.
  induction 1 as [|p ps N _ IH]; intros alt ts W F Pa; cbn [p_choice_from].
  - destruct alt as [e|]; [exists e; auto|]. eexists. split; [reflexivity|apply plain_unexpected, W].
  - destruct (N ts W F) as (e & O & P). rewrite O. destruct (merge_alts alt (Some e)) as [alt' c] eqn:M.
    unfold add_crash. cbn [r_out]. apply IH; [exact W|exact F|].
    eapply merge_alts_with; [apply plain_respects|exact M|exact Pa|exact P].
Qed.

Lemma needs_choice {A} f (ps : list (parser A)) : Forall (needs f) ps -> needs f (p_choice ps).
Proof. intros H ts W F. apply needs_choice_from with f; auto. exact I. Qed.

Lemma needs_repeat {A} f n m (p : parser A) : 0 < n -> m <> Some 0 -> needs f p -> needs f (p_repeat n m p).
Proof.
  intros L M N ts W F. destruct (N ts W F) as (e & O & P). exists e. split; [|exact P].
  unfold p_repeat. cbn [Nat.add repeat_loop]. replace (match m with Some m0 => m0 <=? List.length [] | None => false end) with false.
  - rewrite O. destruct n; [lia|]. reflexivity.
  - destruct m as [[|m]|]; [congruence|reflexivity..].
Qed.

(** ** What a success leaves behind *)

Lemma neat_more {A} (G G' : toks -> Prop) (p : parser A) : (forall ts, G ts -> G' ts) -> neat G p -> neat G' p.
Proof. intros I N ts a rest alt W O. destruct (N ts a rest alt W O); auto. Qed.

Lemma neat_any {A} G (p : parser A) : neat nowhere p -> neat G p.
Proof. apply neat_more. intros ts []. Qed.

Lemma neat_pl {A} G (p : parser A) : okl pl p -> neat G p.
Proof.
  intros H ts a rest alt W O. destruct (H ts W) as [H1 _]. rewrite O in H1. left. apply H1.
Qed.

Lemma err_pl {A} (p : parser A) ts e : okl pl p -> wt ts -> r_out (p ts) = Err e -> plain e.
Proof. intros H W O. destruct (H ts W) as [H1 _]. rewrite O in H1. exact H1. Qed.

Lemma neat_map {A B} G (f : A -> B) p : neat G p -> neat G (p_map f p).
Proof. intros N ts b rest alt W O. apply map_rest in O. destruct O as (a & O & _). eapply N; eassumption. Qed.

Lemma neat_ignored {A} G (p : parser A) : neat G p -> neat G (p_ignored p).
Proof. apply neat_map. Qed.

Lemma neat_spanned {A} G (p : parser A) : neat G p -> neat G (p_spanned p).
Proof.
  intros N ts b rest alt W O. unfold p_spanned, p_map_with_span in O. cbn [r_out] in O.
  destruct (r_out (p ts)) as [a r al|e] eqn:X; [|discriminate]. injection O as _ <- <-. eapply N; eassumption.
Qed.

Lemma neat_map_err {A} G f (p : parser A) : neat G p -> neat G (p_map_err f p).
Proof.
  intros N ts b rest alt W O. unfold p_map_err in O. cbn [r_out] in O.
  destruct (r_out (p ts)) as [a r al|e] eqn:X; [|discriminate]. injection O as _ <- <-. eapply N; eassumption.
Qed.

Lemma neat_map_err_with_span {A} G f (p : parser A) : neat G p -> neat G (p_map_err_with_span f p).
Proof.
  intros N ts b rest alt W O. unfold p_map_err_with_span in O.
  destruct (r_out (p ts)) as [a r al|e] eqn:X.
  - rewrite X in O. injection O as _ <- <-. eapply N; eassumption.
  - destruct (f _ _); discriminate.
Qed.

Lemma neat_try_map {A B} G (f : A -> span -> B + perror span) p : neat G p -> neat G (p_try_map f p).
Proof.
  intros N ts b rest alt W O. unfold p_try_map in O. cbn [r_out] in O.
  destruct (r_out (p ts)) as [a r al|e] eqn:X; [|discriminate]. destruct (f _ _); [|discriminate].
  injection O as _ <- <-. eapply N; eassumption.
Qed.

Lemma neat_validate {A B} G (f : A -> span -> B * option (perror span)) p : neat G p -> neat G (p_validate f p).
Proof.
  intros N ts b rest alt W O. unfold p_validate in O.
  destruct (r_out (p ts)) as [a r al|e] eqn:X; [|discriminate]. destruct (f _ _).
  injection O as _ <- <-. eapply N; eassumption.
Qed.

Lemma ok_wt {A} (p : parser A) ts a rest alt : okl from p -> wt ts -> r_out (p ts) = Ok a rest alt ->
  wt rest /\ List.length rest <= List.length ts.
Proof. intros H W O. destruct (H ts W) as [H1 _]. rewrite O in H1. split; apply H1. Qed.

(** What the first one leaves behind carries over to what the second one leaves. *)
Lemma neat_bind_on {A B} (G G' : toks -> Prop) (p : parser A) (k : A -> parser B) : okl from p -> neat G p ->
  (forall a, neat G' (k a)) ->
  (forall ts a b rest alt, wt ts -> G ts -> r_out (k a ts) = Ok b rest alt -> G' rest) ->
  neat G' (p_bind p k).
Proof.
  intros L N K C ts ab rest alt W O. apply then_rest in O. destruct O as (r1 & al1 & al2 & O1 & O2 & ->).
  destruct (ok_wt _ _ _ _ _ L W O1) as [W1 _].
  destruct (N _ _ _ _ W O1) as [P1|P1]; [|right; eapply C; eassumption].
  destruct (K _ _ _ _ _ W1 O2) as [P2|P2]; [|right; exact P2].
  left. destruct (merge_alts al1 al2) as [al c] eqn:M. cbn [fst].
  eapply merge_alts_with; [apply plain_respects|exact M|exact P1|exact P2].
Qed.

Lemma neat_bind {A B} (G G' : toks -> Prop) (p : parser A) (k : A -> parser B) : okl from p -> neat G p ->
  (forall a, neat G' (k a)) -> (forall a, blocks G (k a)) -> neat G' (p_bind p k).
Proof.
  intros L N K C. apply (neat_bind_on G G'); auto. intros ts a b rest alt W X O.
  destruct (C a ts W X) as [e Y]. congruence.
Qed.

Lemma neat_then {A B} (G G' : toks -> Prop) (p : parser A) (k : parser B) : okl from p -> neat G p ->
  neat G' k -> blocks G k -> neat G' (p_then p k).
Proof. intros L N K C. apply (neat_bind G G'); auto. Qed.

Lemma blocks_nowhere {A} (p : parser A) : blocks nowhere p.
Proof. intros ts _ []. Qed.

Lemma neat_then_both {A B} (G : toks -> Prop) (p : parser A) (k : parser B) : okl from p -> neat nowhere p ->
  neat G k -> neat G (p_then p k).
Proof. intros L N K. apply (neat_then nowhere); auto. apply blocks_nowhere. Qed.

(** Of two alternatives: never does one succeed while the other fails badly, and
    never do both succeed. *)
Lemma neat_or {A} G (p k : parser A) : neat G p -> neat G k ->
  (forall ts e a rest alt, wt ts -> r_out (p ts) = Err e -> r_out (k ts) = Ok a rest alt -> plain e) ->
  (forall ts a rest alt, wt ts -> r_errs (p ts) <> [] -> r_out (p ts) = Ok a rest alt ->
     exists e, r_out (k ts) = Err e /\ plain e) ->
  neat G (p_or p k).
Proof.
  intros N K C1 C2 ts b rest alt W.
  destruct (p_or_cases p k ts) as
    [(a & r & al & He & Ho & X)
    |[D [(a & r & al & alt' & c & Ho & He & M & X)
        |[(a & r & al & alt' & c & Ho & M & X)
         |(ea & eb & Ha & Hb & [[X _]|[[X _]|(e' & c & M & Le & X)]])]]]]; rewrite X; cbn [r_out]; try discriminate.
  - rewrite Ho. intros [= <- <- <-]. eapply N; eassumption.
  - intros [= <- <- <-]. destruct (N _ _ _ _ W Ho) as [P|P]; [|right; exact P]. left.
    eapply merge_alts_with; [apply plain_respects|exact M|exact P|].
    destruct (C2 _ _ _ _ W He Ho) as (e & O2 & Pe). rewrite O2. exact Pe.
  - intros [= <- <- <-]. destruct (K _ _ _ _ W Ho) as [P|P]; [|right; exact P]. left.
    eapply merge_alts_with; [apply plain_respects|exact M|exact P|].
    destruct (r_out (p ts)) as [a' r' al'|e] eqn:O2; cbn [branch_alt].
    + exfalso. destruct D as [D|[e D]]; [|discriminate].
      destruct (C2 _ _ _ _ W D O2) as (e & O3 & _). congruence.
    + cbn. eapply C1; eassumption.
Qed.

Lemma neat_or_quiet {A} G (p k : parser A) : quiet p -> neat G p -> neat G k ->
  (forall ts e a rest alt, wt ts -> r_out (p ts) = Err e -> r_out (k ts) = Ok a rest alt -> plain e) ->
  neat G (p_or p k).
Proof.
  intros Q N K C. apply neat_or; auto. intros ts a rest alt W X. elim X. apply Q.
Qed.

Lemma or_err {A} (p k : parser A) ts e : r_out (p_or p k ts) = Err e ->
  exists ea eb, r_out (p ts) = Err ea /\ r_out (k ts) = Err eb /\ (same e ea \/ same e eb).
Proof.
  destruct (p_or_cases p k ts) as
    [(a & r & al & He & Ho & X)
    |[D [(a & r & al & alt' & c & Ho & He & M & X)
        |[(a & r & al & alt' & c & Ho & M & X)
         |(ea & eb & Ha & Hb & [[X _]|[[X _]|(e' & c & M & Le & X)]])]]]]; rewrite X; cbn [r_out]; try congruence;
    intros [= <-]; exists ea, eb; (split; [exact Ha|]; split; [exact Hb|]).
  - left. apply same_refl.
  - right. apply same_refl.
  - destruct (lmax_pick _ _ _ _ M) as [[S _]|[S _]]; auto.
Qed.

Lemma stuck_or {A} (p k : parser A) ts : stuck (p_or p k) ts -> stuck p ts \/ stuck k ts.
Proof.
  intros (e & O & P). destruct (or_err _ _ _ _ O) as (ea & eb & Oa & Ob & [S|S]); [left; exists ea|right; exists eb];
    (split; [assumption|]); intros Q; apply P; eapply same_plain; eassumption.
Qed.

Lemma stuck_map {A B} (f : A -> B) (p : parser A) ts : stuck (p_map f p) ts -> stuck p ts.
Proof.
  intros (e & O & P). unfold p_map in O. cbn [r_out] in O. destruct (r_out (p ts)) eqn:X; [discriminate|].
  injection O as ->. exists e. auto.
Qed.

Lemma stuck_spanned {A} (p : parser A) ts : stuck (p_spanned p) ts -> stuck p ts.
Proof.
  intros (e & O & P). unfold p_spanned, p_map_with_span in O. cbn [r_out] in O. destruct (r_out (p ts)) eqn:X; [discriminate|].
  injection O as ->. exists e. auto.
Qed.

Lemma stuck_map_err {A} f (p : parser A) ts : (forall e, perror_spans (f e) = perror_spans e) ->
  stuck (p_map_err f p) ts -> stuck p ts.
Proof.
  intros F (e & O & P). unfold p_map_err in O. cbn [r_out] in O. destruct (r_out (p ts)) as [|e0] eqn:X; [discriminate|].
  injection O as <-. exists e0. split; [exact X|]. intros Q. apply P. eapply same_plain; [|exact Q].
  split; [reflexivity|apply F].
Qed.

(** How a sequence fails badly. *)
Lemma stuck_bind {A B} (G : toks -> Prop) (p : parser A) (k : A -> parser B) ts : neat G p -> wt ts -> stuck (p_bind p k) ts ->
  stuck p ts \/ exists a rest alt, r_out (p ts) = Ok a rest alt /\ (G rest \/ stuck (k a) rest).
Proof.
  intros N W (e & O & P). unfold p_bind in O. destruct (r_out (p ts)) as [a r al|e0] eqn:X.
  - right. exists a, r, al. split; [reflexivity|]. destruct (N _ _ _ _ W X) as [Q|Q]; [right|left; exact Q].
    destruct (r_out (k a r)) as [b r2 al2|e2] eqn:Y.
    + destruct (merge_alts al al2). discriminate.
    + destruct (lmax_opt e2 al) as [e3 c] eqn:M. injection O as ->. exists e2. split; [exact Y|].
      intros Z. apply P. eapply lmax_opt_with; [apply plain_respects|exact M|exact Z|exact Q].
  - injection O as ->. left. exists e. auto.
Qed.

Lemma stuck_choice_from {A} (ps : list (parser A)) : forall alt ts, wt ts -> stuck (p_choice_from alt ps) ts ->
  opt plain alt -> Exists (fun p => stuck p ts) ps.
Proof.
  induction ps as [|p ps IH]; intros alt ts W (e & O & P) Pa; cbn [p_choice_from] in O.
  - exfalso. destruct alt as [e'|]; injection O as <-; [exact (P Pa)|]. apply P, plain_unexpected, W.
  - destruct (r_out (p ts)) as [a r al|e0] eqn:X; [congruence|].
    destruct (plain_dec t e0) as [Q|Q]; [|left; exists e0; auto]. right.
    destruct (merge_alts alt (Some e0)) as [alt' c] eqn:M. apply (IH alt' ts W); [exists e; auto|].
    eapply merge_alts_with; [apply plain_respects|exact M|exact Pa|exact Q].
Qed.

Lemma stuck_choice {A} (ps : list (parser A)) ts : wt ts -> stuck (p_choice ps) ts -> Exists (fun p => stuck p ts) ps.
Proof. intros W H. eapply stuck_choice_from; [exact W|exact H|exact I]. Qed.

Lemma neat_choice_from {A} G (ps : list (parser A)) : Forall (neat G) ps -> forall alt, neat G (p_choice_from alt ps).
Proof.
  induction 1 as [|p ps N _ IH]; intros alt ts a rest al W O; cbn [p_choice_from] in O.
  - destruct alt; discriminate.
  - destruct (r_out (p ts)) as [a' r al'|e0] eqn:X; [rewrite X in O; injection O as <- <- <-; eapply N; [exact W|exact X]|].
    destruct (merge_alts alt (Some e0)) as [alt' c]. cbn in O. eapply IH; eassumption.
Qed.

Lemma neat_choice {A} G (ps : list (parser A)) : Forall (neat G) ps -> neat G (p_choice ps).
Proof. intros H. apply neat_choice_from, H. Qed.

Lemma neat_or_not {A} (G : toks -> Prop) (p : parser A) : neat G p -> (forall ts, wt ts -> stuck p ts -> G ts) -> neat G (p_or_not p).
Proof.
  intros N S ts a rest alt W O. unfold p_or_not in O. destruct (r_out (p ts)) as [a' r al|e] eqn:X.
  - injection O as _ <- <-. eapply N; eassumption.
  - injection O as _ <- <-. destruct (plain_dec t e) as [Q|Q]; [left; exact Q|right]. apply S; [exact W|]. exists e. auto.
Qed.

(** What repetition leaves behind. *)
Lemma neat_repeat_loop {A} (G : toks -> Prop) (p : parser A) least most : okl from p -> neat G p -> blocks G p ->
  forall fuel errs outs alt old cr ts, wt ts -> opt plain alt \/ G ts ->
  forall o rest alt', r_out (repeat_loop fuel p least most errs outs alt old cr ts) = Ok o rest alt' ->
  opt plain alt' \/ G rest \/ stuck p rest.
Proof.
  intros L N C. induction fuel as [|fuel IH]; intros errs outs alt old cr ts W H o rest alt'; cbn [repeat_loop].
  - cbn. intros [= <- <- <-]. tauto.
  - destruct (match most with Some m => m <=? List.length outs | None => false end).
    { cbn. intros [= <- <- <-]. tauto. }
    destruct (r_out (p ts)) as [a r al|e] eqn:X.
    + destruct H as [H|H]; [|destruct (C ts W H) as [e Y]; congruence].
      destruct (ok_wt _ _ _ _ _ L W X) as [W1 _].
      destruct (merge_alts alt al) as [al2 c] eqn:M.
      assert (opt plain al2 \/ G r) as H2.
      { destruct (N _ _ _ _ W X) as [Q|Q]; [left|right; exact Q].
        eapply merge_alts_with; [apply plain_respects|exact M|exact H|exact Q]. }
      destruct (match old with Some o => o =? List.length r | None => false end).
      * cbn [r_out rev]. intros [= <- <- <-]. tauto.
      * intros Y. eapply IH; [exact W1|exact H2|exact Y].
    + destruct (List.length outs <? least); [discriminate|]. destruct (merge_alts alt (Some e)) as [al2 c] eqn:M.
      cbn. intros [= <- <- <-]. destruct H as [H|H]; [|auto].
      destruct (plain_dec t e) as [Q|Q]; [|right; right; exists e; auto].
      left. eapply merge_alts_with; [apply plain_respects|exact M|exact H|exact Q].
Qed.

Lemma neat_repeat {A} (G : toks -> Prop) n m (p : parser A) : okl from p -> neat G p -> blocks G p ->
  neat (fun ts => G ts \/ stuck p ts) (p_repeat n m p).
Proof.
  intros L N C ts a rest alt W O. unfold p_repeat in O.
  refine (neat_repeat_loop G p n m L N C _ _ _ None _ _ ts W (or_introl I) _ _ _ O).
Qed.

Lemma neat_repeat_nowhere {A} n m (p : parser A) : okl from p -> neat nowhere p -> neat (stuck p) (p_repeat n m p).
Proof.
  intros L N. eapply neat_more; [|apply (neat_repeat nowhere); [exact L|exact N|apply blocks_nowhere]].
  intros ts [[]|H]. exact H.
Qed.

(** Repetition without a minimum never fails. *)
Lemma repeated_ok {A} (p : parser A) ts : exists a rest alt, r_out (p_repeated p ts) = Ok a rest alt.
Proof.
  assert (forall fuel errs outs alt old cr ts, exists a rest alt',
    r_out (repeat_loop fuel p 0 None errs outs alt old cr ts) = Ok a rest alt') as H; [|apply H].
  clear ts. induction fuel as [|fuel IH]; intros errs outs alt old cr ts; cbn [repeat_loop]; [cbn; eauto|].
  destruct (r_out (p ts)) as [a r al|e].
  - destruct (merge_alts alt al). destruct (match old with Some o => o =? List.length r | None => false end); [cbn; eauto|].
    apply IH.
  - cbn [Nat.ltb Nat.leb]. destruct (merge_alts alt (Some e)). cbn. eauto.
Qed.

(** With a minimum of one: failure is that of the first, success the same as without. *)
Lemma repeat_one {A} (p : parser A) ts :
  (exists e, r_out (p ts) = Err e /\ r_out (p_repeat 1 None p ts) = Err e)
  \/ p_repeat 1 None p ts = p_repeated p ts.
Proof.
  assert (forall fuel errs outs alt old cr ts, outs <> [] ->
    repeat_loop fuel p 1 None errs outs alt old cr ts = repeat_loop fuel p 0 None errs outs alt old cr ts) as H.
  { induction fuel as [|fuel IH]; intros errs outs alt old cr ts' N; cbn [repeat_loop]; [reflexivity|].
    destruct (r_out (p ts')) as [a r al|e].
    - destruct (merge_alts alt al). destruct (match old with Some o => o =? List.length r | None => false end); [reflexivity|].
      apply IH. discriminate.
    - destruct outs; [congruence|]. reflexivity. }
  unfold p_repeated, p_repeat. change (3 + List.length ts) with (S (2 + List.length ts)).
  generalize (2 + List.length ts). intros fuel. cbn [repeat_loop]. destruct (r_out (p ts)) as [a r al|e].
  - right. destruct (merge_alts None al). apply H. discriminate.
  - left. exists e. auto.
Qed.

Lemma stuck_repeat {A} (p : parser A) ts : stuck (p_repeat 1 None p) ts -> stuck p ts.
Proof.
  intros (e & O & P). destruct (repeat_one p ts) as [(e' & X & Y)|X].
  - exists e. split; [congruence|exact P].
  - rewrite X in O. destruct (repeated_ok p ts) as (a & r & al & Z). congruence.
Qed.

(** When the first fails, repetition stays. *)
Lemma repeated_stays {A} (p : parser A) ts e : r_out (p ts) = Err e ->
  r_out (p_repeated p ts) = Ok [] ts (Some e).
Proof.
  intros O. unfold p_repeated, p_repeat. change (3 + List.length ts) with (S (2 + List.length ts)).
  cbn [repeat_loop]. rewrite O. reflexivity.
Qed.

End OrderStuck.
