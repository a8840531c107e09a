(** Where the errors of the parsers of src/grammar.rs lie, with respect to the
    texts that can still become a document. *)

From Coq Require Import NArith PeanoNat List Bool String Lia.
From Verif Require Import Chars Ast Errors Chumsky Spans Grammar Safe GrammarSafe Kdl KdlChars Good GrammarNear
  LexLit LexIdent LexSpace SpanProps ErrSpec TokenSet ErrAt ErrGrammar LaxSpec LaxCalc.
Import ListNotations.
Local Open Scope list_scope.

(** ** Languages *)

Lemma cat_word a b s : cat (word a) (word b) s -> word (a ++ b) s.
Proof. intros [x y X Y]. unfold word in *. subst. reflexivity. Qed.

Lemma inh_word s : inhabited (word s).
Proof. exists s. reflexivity. Qed.

Definition top : lang := fun _ => True.

Lemma block_relax :
  (forall s, block true s -> block false s) /\ (forall s, block_rest true s -> block_rest false s).
Proof.
  assert (forall n, (forall s, List.length s < n -> block true s -> block false s)
    /\ (forall s, List.length s < n -> block_rest true s -> block_rest false s)) as H.
  { induction n as [|n [IH1 IH2]]; [split; intros s L; lia|]. 
    assert (forall s, List.length s < S n -> block true s -> block false s) as B.
    { intros s L H. destruct H as [u H]. constructor. apply IH2; [|exact H].
      rewrite app_length in L. cbn in L. lia. }
    split; [exact B|]. intros s L H. destruct H as [|s u H1 H2|c u H1 H2 H3|u H1 H2].
    - constructor.
    - rewrite app_length in L. constructor; [apply B; [lia|exact H1]|]. apply IH2; [|exact H2].
      destruct (block_start _ _ H1) as [v ->]. cbn in L. lia.
    - cbn in L. constructor; [apply IH2; [lia|exact H1]|exact H2|discriminate].
    - cbn in L. constructor; [apply IH2; [lia|exact H1]|exact H2]. }
  split; intros s; apply (H (S (List.length s))); lia.
Qed.

Lemma rest_ne st u : block_rest st u -> u <> [].
Proof. intros H. destruct (block_rest_end _ _ H) as [v ->]. destruct v; discriminate. Qed.

(** A comment is closed, or can be. *)
Lemma block_extend n : forall w, List.length w < n ->
  (exists w1 w2, w = w1 ++ w2 /\ block_rest true w1) \/ (exists s, block_rest true (w ++ s)).
Proof.
  induction n as [|n IH]; intros w L; [lia|].
  assert (forall (c : char) w', w = c :: w' ->
    (forall u, block_rest true u -> (exists r, w' = u ++ r) \/ (exists r, u = w' ++ r) -> w' <> [] -> block_rest true (c :: u)) ->
    w' <> [] ->
    (exists w1 w2, w = w1 ++ w2 /\ block_rest true w1) \/ (exists s, block_rest true (w ++ s))) as Step.
  { intros c w' -> F N. cbn in L. destruct (IH w') as [(w1 & w2 & X & B)|(s & B)]; [lia| |].
    - left. exists (c :: w1), w2. split; [rewrite X; reflexivity|]. apply F; [exact B|left; exists w2; exact X|exact N].
    - right. exists s. cbn [app]. apply F; [exact B|right; exists s; reflexivity|exact N]. }
  assert (forall (u w' : text) (x : char), block_rest true u -> (exists r, w' = u ++ r) \/ (exists r, u = w' ++ r) -> w' <> [] ->
    hd_error w' <> Some x -> hd_error u <> Some x) as Hd.
  { intros u w' x B [[r ->]|[r ->]] N H.
    - pose proof (rest_ne _ _ B) as NE. destruct u; [congruence|]. exact H.
    - destruct w'; [congruence|]. exact H. }
  destruct w as [|c w].
  { right. exists (str "*/"). constructor. }
  destruct (N.eq_dec c 0x2A) as [->|N1].
  - destruct w as [|d w].
    { right. exists (str "/"). exact (BR_end true). }
    destruct (N.eq_dec d 0x2F) as [->|N2].
    { left. exists (str "*/"), w. split; [reflexivity|constructor]. }
    apply (Step 0x2A%N (d :: w) eq_refl); [|discriminate]. intros u B P NE. apply BR_star; [exact B|].
    eapply Hd; [exact B|exact P|exact NE|]. cbn. congruence.
  - destruct (N.eq_dec c 0x2F) as [->|N2].
    + destruct w as [|d w].
      { right. exists (str " */"). apply BR_char; [|discriminate|discriminate].
        apply BR_char; [constructor|discriminate|discriminate]. }
      destruct (N.eq_dec d 0x2A) as [->|N3].
      * cbn in L. destruct (IH w) as [(w1 & w2 & -> & B)|(s & B)]; [lia| |].
        -- rewrite app_length in L. destruct (IH w2) as [(w3 & w4 & -> & B2)|(s & B2)]; [lia| |].
           ++ left. exists ((str "/*" ++ w1) ++ w3), w4. split; [cbn; rewrite <- app_assoc; reflexivity|].
              apply BR_nested; [constructor; exact B|exact B2].
           ++ right. exists s.
              refine (eq_ind _ (block_rest true) (BR_nested true _ _ (Block true w1 B) B2) _ _).
              cbn. rewrite !app_assoc. reflexivity.
        -- right. exists (s ++ str "*/").
           refine (eq_ind _ (block_rest true) (BR_nested true _ _ (Block true _ B) (BR_end true)) _ _).
           cbn. rewrite !app_assoc. reflexivity.
      * apply (Step 0x2F%N (d :: w) eq_refl); [|discriminate]. intros u B P NE.
        apply BR_char; [exact B|exact N1|]. intros _ _. eapply Hd; [exact B|exact P|exact NE|]. cbn. congruence.
    + destruct w as [|d w].
      { right. exists (str "*/"). apply BR_char; [constructor|exact N1|]. intros _ X. congruence. }
      apply (Step c (d :: w) eq_refl); [|discriminate]. intros u B P NE.
      apply BR_char; [exact B|exact N1|]. intros _ X. congruence.
Qed.

(** In a comment that is not closed everything is possible. *)
Lemma open_pfx q m : (forall w1 w2, q = w1 ++ w2 -> ~ block_rest true w1) -> near q m ->
  pfx (block false) (str "/*" ++ m).
Proof.
  intros N (m' & q1 & X & M).
  assert (forall s, block_rest true (m ++ s) -> pfx (block false) (str "/*" ++ m)) as F.
  { intros s B. exists s. rewrite <- app_assoc. apply block_relax. constructor. exact B. }
  destruct (block_extend (S (List.length m)) m) as [(w1 & w2 & Y & B)|(s & B)]; [lia| |eauto].
  destruct w2 as [|x w2] using rev_ind.
  - rewrite app_nil_r in Y. subst w1. apply (F []). rewrite app_nil_r. exact B.
  - exfalso. destruct M as [->|(y & _ & ->)].
    + apply (N w1 ((w2 ++ [x]) ++ q1)); [|exact B]. rewrite X, Y, <- !app_assoc. reflexivity.
    + rewrite app_assoc in Y. apply app_inj_tail in Y. destruct Y as [-> _].
      apply (N w1 (w2 ++ q1)); [|exact B]. rewrite X, <- app_assoc. reflexivity.
Qed.

Section LaxGrammar.
Variable t : text.
Variable V : text -> Prop.

#[local] Hint Extern 0 (env span) => exact (ErrAt.E t) : typeclass_instances.

Notation okv := (okv t V).
Notation at_ := (at_ t V).
Notation gl := (gl t V).
Notation room := (room V).

(** ** Errors at the start *)

Definition here {A} (p : parser span A) (ts : toks span) : Prop :=
  forall e, r_out (p ts) = Err e -> l_rem e = List.length ts.

Lemma here_just x ts : here (p_just x) ts.
Proof.
  intros e. unfold p_just. destruct ts as [|[c s] ts]; [intros [= <-]; reflexivity|].
  destruct (c =? x)%N; [discriminate|]. intros [= <-]. reflexivity.
Qed.

Lemma here_filter f ts : here (p_filter f) ts.
Proof.
  intros e. unfold p_filter. destruct ts as [|[c s] ts]; [intros [= <-]; reflexivity|].
  destruct (f c); [discriminate|]. intros [= <-]. reflexivity.
Qed.

Lemma here_map {A B} (f : A -> B) p ts : here p ts -> here (p_map f p) ts.
Proof.
  intros H e. unfold p_map. cbn [r_out]. destruct (r_out (p ts)) as [a rest alt|e'] eqn:O; [discriminate|].
  intros [= <-]. apply H, O.
Qed.

Lemma here_or {A} (p p' : parser span A) ts : quiet p -> (failed (p' ts) -> here p ts) -> here p' ts -> here (p_or p p') ts.
Proof.
  intros Q H H' e.
  destruct (p_or_cases p p' ts) as
    [(a & rest & alt & He & Ho & ->)
    |[_ [(a & rest & alt & alt' & c & Ho & He & M & ->)
        |[(a & rest & alt & alt' & c & Ho & M & ->)
         |(ea & eb & Ha & Hb & [[-> _]|[[-> _]|(e2 & c & M & Le & ->)]])]]]].
  - rewrite Ho. discriminate.
  - discriminate.
  - discriminate.
  - cbn [r_out]. intros [= <-]. apply H; [exists eb; exact Hb|exact Ha].
  - cbn [r_out]. intros [= <-]. apply H'. exact Hb.
  - cbn [r_out]. intros [= <-].
    assert (l_rem ea = List.length ts) as R by (apply H; [exists eb; exact Hb|exact Ha]).
    assert (l_rem eb = List.length ts) as R' by (apply H'; exact Hb).
    unfold lmax in M. destruct (Nat.compare _ _); try (inversion M; subst; assumption).
    destruct (merge _ _); inversion M; subst; assumption.
Qed.

Lemma here_crlf ts : failed (p_just 0x0D%N ts) -> here (p_ignore_then (p_or_not (p_just 0x0D%N)) (p_just 0x0A%N)) ts.
Proof.
  intros [e0 F]. apply here_map. intros e. unfold p_then, p_bind, p_or_not at 1. rewrite F. cbn [r_out].
  destruct (r_out (p_just 0x0A%N ts)) as [a rest alt|e'] eqn:O.
  - destruct (merge_alts (Some e0) alt); discriminate.
  - destruct (lmax_opt e' (Some e0)) as [e2 c] eqn:M. cbn [r_out]. intros [= <-].
    pose proof (here_just _ _ _ O) as R. pose proof (here_just _ _ _ F) as R0.
    cbn [lmax_opt] in M. unfold lmax in M. destruct (Nat.compare _ _); try (inversion M; subst; assumption).
    destruct (merge _ _); inversion M; subst; assumption.
Qed.

Lemma at_kind {A} (Q : text -> text -> A -> Prop) k (p : parser span A) pre q : t = pre ++ q ->
  here p (toks_at pre q) -> (forall x, fits (TKind k) x -> q <> [] -> V (pre ++ [x])) ->
  at_ p pre q Q -> at_ (p_map_err (with_expected_kind k) p) pre q Q.
Proof.
  intros T H F P. apply at_map_err; [|exact P]. intros e O (P1 & q1 & G1 & G2 & G3).
  specialize (H e O). rewrite toks_len in H. rewrite G2 in H.
  destruct (same_place t P1 q1 pre q G1 T H) as [-> ->].
  exists pre, q. split; [exact T|]. split; [exact G2|]. cbn [l_err].
  destruct (l_err e) as [lab sp found exp| | |]; try exact G3.
  destruct G3 as (H1 & H2 & H3 & H4). split; [exact H1|]. split; [exact H2|]. split; [|exact H4].
  intros k' x [<-|[]]. apply F.
Qed.

Lemma okv_kind {A} L k (p : parser span A) : (forall ts, here p ts) -> (forall x, fits (TKind k) x -> pfx L [x]) ->
  okv L p -> okv L (p_map_err (with_expected_kind k) p).
Proof.
  intros H F [I P]. split; [exact I|]. intros pre q T R. apply at_kind; [exact T|apply H| |apply P; assumption].
  intros x X N. apply R; [apply F, X|]. destruct q as [|c q]; [congruence|]. exact (near_instead [] c q x).
Qed.

Lemma tame_none : tame with_no_expected.
Proof. intros [lab sp found exp| | |]; try reflexivity. exists []. split; [reflexivity|]. intros k x []. Qed.

Lemma tame_token s : tame (with_expected_token s).
Proof.
  intros [lab sp found exp| | |]; try reflexivity. eexists. split; [reflexivity|]. intros k x [<-|[]] F. inversion F.
Qed.

Lemma tame_kind s : s <> str "letter" -> s <> str "newline" -> tame (with_expected_kind s).
Proof.
  intros N1 N2 [lab sp found exp| | |]; try reflexivity. eexists. split; [reflexivity|].
  intros k x [<-|[]] F. remember (TKind s) as k eqn:Ek.
  destruct F; [discriminate Ek|apply N1|apply N2]; injection Ek as Ek; symmetry; exact Ek.
Qed.

(** ** Space *)

Lemma okv_begin x : okv (word [0x2F; x]%N) (begin_comment x).
Proof.
  eapply okv_weaken; [|apply okv_ignore_then; [apply okv_tame; [apply tame_none|apply okv_just]|apply okv_ignored, okv_just]].
  apply cat_word.
Qed.

Lemma inh_newline : inhabited lax_newline.
Proof. exists [0x0A%N]. apply Alt_r. exists 0x0A%N. cbn. auto. Qed.

Lemma newline_one c : In c newline_chars -> lax_newline [c].
Proof. intros H. apply Alt_r. exists c. auto. Qed.

Lemma okv_newline : okv lax_newline newline.
Proof.
  unfold newline. apply okv_kind.
  - intros ts. apply here_map.
    assert (quiet (p_ignore_then (p_or_not (p_just 0x0D%N)) (p_just 0x0A%N))) as Q by exact (@quiet_crlf span (ErrAt.E t)).
    do 4 (apply here_or; [repeat apply quiet_or; try apply quiet_just; exact Q|intros _|apply here_just]).
    apply here_or; [exact Q|apply here_crlf|apply here_just].
  - intros x F. apply pfx_self. remember (TKind (str "newline")) as k eqn:Ek.
    destruct F as [| |c H]; [discriminate Ek|discriminate Ek|]. apply newline_one. exact H.
  - apply okv_ignored.
    assert (forall c, In c newline_chars -> okv lax_newline (p_just c)) as J.
    { intros c H. eapply okv_weaken; [|apply okv_just]. intros s <-. apply newline_one, H. }
    repeat apply okv_or; try (apply J; cbn; tauto).
    eapply okv_weaken; [|apply okv_ignore_then; [apply okv_or_not, okv_just|apply okv_just]].
    intros s [a b A <-]. destruct A as [|a <-]; [apply newline_one; cbn; tauto|].
    apply Alt_l. reflexivity.
Qed.

Lemma okv_ws_char : okv (one_of (fun c => In c ws_chars)) ws_char.
Proof.
  apply okv_ignored, okv_filter; [exists 0x20%N; cbn; tauto|]. intros c. apply ws_char_spec.
Qed.

Lemma at_choice_pick {A} (Q : text -> text -> A -> Prop) l p l' pre q : Forall (fun p' => failed (p' (toks_at pre q))) l ->
  ~ failed (p (toks_at pre q)) -> at_ p pre q Q -> at_ (p_choice (l ++ p :: l')) pre q Q.
Proof.
  intros F N P. unfold p_choice, LaxCalc.at_.
  assert (forall al, ok_res t V Q pre q (p_choice_from al (l ++ p :: l') (toks_at pre q))) as H; [|apply H].
  induction F as [|p' l [e E] _ IH]; intros al; cbn [app p_choice_from].
  - destruct P as [P1 P2]. destruct (r_out (p (toks_at pre q))) as [a rest alt|e] eqn:O.
    + split; [exact P1|]. rewrite O. exact P2.
    + exfalso. apply N. exists e. exact O.
  - rewrite E. destruct (merge_alts al (Some e)) as [al' c]. apply (IH al').
Qed.

Lemma choice_not_failed {A} (p : parser span A) ps ts : In p ps -> ~ failed (p ts) -> ~ failed (p_choice ps ts).
Proof.
  intros I N. unfold p_choice. generalize (@None (located span)).
  induction ps as [|p' ps IH]; intros al [e F]; [destruct I|]. cbn [p_choice_from] in F.
  destruct (r_out (p' ts)) as [a rest alt|e'] eqn:O; [congruence|]. destruct I as [->|I].
  - apply N. exists e'. exact O.
  - destruct (merge_alts al (Some e')) as [al' c]. eapply (IH I). exists e. exact F.
Qed.

Lemma at_succ {A} (Q : text -> text -> A -> Prop) (p : parser span A) pre q a rest : succ (p (toks_at pre q)) a rest ->
  at_ p pre q Q -> at_ p pre q (fun m q' a' => Q m q' a' /\ a' = a /\ toks_at (pre ++ m) q' = rest).
Proof.
  intros [_ [alt O]] [H1 H2]. split; [exact H1|]. rewrite O in *.
  destruct H2 as (m & q' & X & Y & Z & W). exists m, q'. split; [exact X|]. split; [exact Y|].
  split; [exact Z|]. split; [exact W|]. split; [reflexivity|]. symmetry. exact Y.
Qed.

Lemma okv_rewind_filter f : okv (word []) (p_rewind (p_filter f)).
Proof.
  split; [apply inh_word|]. intros pre q T R. apply at_rewind.
  eapply at_weaken; [|apply at_filter; [exact T|eapply room_here; [apply inh_word|exact R]]].
  intros m q' a _ _. apply K_full. reflexivity.
Qed.

Lemma okv_top {A} L (p : parser span A) : okv L p -> okv top p.
Proof. apply okv_weaken. intros s _. exact I. Qed.

Definition opened : lang := cat (word (str "/*")) top.

Lemma inh_opened : inhabited opened.
Proof. exists (str "/*" ++ []). constructor; [reflexivity|exact I]. Qed.

Lemma okv_ml_rec n : okv opened (ml_comment_rec n).
Proof.
  induction n as [|n IH]; cbn [ml_comment_rec].
  - split; [apply inh_opened|]. intros pre q T R. split; [constructor|].
    apply unexpected_ok; [exact T|eapply room_here; [apply inh_opened|exact R]|intros ? []].
  - eapply okv_weaken; [|apply okv_then_ignore; [apply okv_ignore_then; [apply (okv_begin 0x2A%N)|]|apply okv_just_str]].
    + intros s [a b A _]. destruct A as [a1 a2 A1 _]. rewrite <- app_assoc. constructor; [exact A1|exact I].
    + apply okv_ignored. apply (okv_top (star top)). apply okv_repeat. apply okv_choice; [exists []; exact I|].
      intros p [<-|[<-|[<-|[]]]].
      * eapply okv_top, IH.
      * apply okv_ignored. apply (okv_top (one_of (fun _ => True))). apply okv_filter; [exists 0x2A%N|]; auto.
      * apply okv_ignored. eapply okv_top. apply okv_then_ignore; [apply okv_just|apply okv_rewind_filter].
Qed.

Lemma at_ml_other n pre c q : t = pre ++ c :: q -> V pre -> c <> 0x2F%N ->
  at_ (ml_comment_rec n) pre (c :: q) (fun _ _ _ => False).
Proof.
  intros T HV N.
  assert (gl (unexpected (toks_at pre (c :: q)) [])) as G by (apply unexpected_ok; [exact T|exact HV|intros ? []]).
  split; [rewrite quiet_ml_rec; constructor|]. destruct n as [|n]; [exact G|]. cbn [ml_comment_rec]. unfold ml_body.
  rewrite (delimited_err _ _ _ _ (unexpected (toks_at pre (c :: q)) [])); [exact G|].
  rewrite toks_cons. unfold begin_comment, p_ignore_then, p_map, p_then, p_bind, p_map_err, p_just.
  destruct (N.eqb_spec c 0x2F%N) as [X|_]; [congruence|]. reflexivity.
Qed.

(** The comment that is closed: [u] is what remains of it. *)
Lemma at_ml_item n :
  (forall pre w q2, t = pre ++ (str "/*" ++ w) ++ q2 -> block_rest true w -> List.length (str "/*" ++ w) <= n ->
     (forall m1 m2, str "/*" ++ w = m1 ++ m2 -> V (pre ++ m1)) ->
     at_ (ml_comment_rec n) pre ((str "/*" ++ w) ++ q2) (fun m q' _ => m = str "/*" ++ w)) ->
  forall pre u q2, t = pre ++ u ++ q2 -> block_rest true u -> List.length u <= n ->
  (forall m1 m2, u = m1 ++ m2 -> V (pre ++ m1)) ->
  at_ (ml_item (ml_comment_rec n)) pre (u ++ q2)
    (fun m q' _ => exists u', u = m ++ u' /\ q' = u' ++ q2 /\ block_rest true u')
  /\ (u = str "*/" \/ ~ failed (ml_item (ml_comment_rec n) (toks_at pre (u ++ q2)))).
Proof.
  intros IH pre u q2 T B L HV.
  assert (V pre) as V0 by (rewrite <- (app_nil_r pre); apply (HV [] u); reflexivity).
  assert (forall c v, u = c :: v -> V (pre ++ [c])) as V1.
  { intros c v X. apply (HV [c] v). exact X. }
  assert (at_ (p_ignored (p_none_of 0x2A%N)) pre (u ++ q2) (fun m _ _ => exists c, m = [c] /\ c <> 0x2A%N)) as P2.
  { apply at_map with (Q := fun m _ c => m = [c] /\ negb (c =? 0x2A)%N = true).
    - intros m q' c _ [-> X]. exists c. split; [reflexivity|]. intros ->. discriminate X.
    - apply at_filter; assumption. }
  assert (forall v, u = 0x2A%N :: v ->
    at_ (p_ignored (p_then_ignore (p_just 0x2A%N) (p_rewind (p_none_of 0x2F%N)))) pre (u ++ q2)
      (fun m q' _ => m = [0x2A%N] /\ hd_error q' <> Some 0x2F%N)) as P3.
  { intros v ->.
    apply at_map with (Q := fun m q' _ => m = [0x2A%N] /\ hd_error q' <> Some 0x2F%N); [auto|].
    apply at_map with (Q := fun m q' _ => m = [0x2A%N] /\ hd_error q' <> Some 0x2F%N); [auto|].
    eapply at_weaken; [|apply at_bind with (Q := fun m _ _ => m = [0x2A%N])
                          (Q' := fun _ _ m q' _ => m = [] /\ hd_error q' <> Some 0x2F%N)].
    - intros m q' a _ (m1 & m2 & -> & -> & -> & H). auto.
    - exact T.
    - eapply at_weaken; [|apply at_just; [exact T|exact V0|intros _ _; eapply V1; reflexivity]].
      intros m q' a _ [-> _]. reflexivity.
    - intros m q' a _ T' ->. apply at_rewind.
      eapply at_weaken; [|apply at_filter; [exact T'|eapply V1; reflexivity]].
      intros m q3 c -> [-> X]. split; [reflexivity|]. cbn. intros [= ->]. discriminate X. }
  assert (forall c v, u = c :: v -> c <> 0x2A%N -> ~ failed (p_ignored (p_none_of 0x2A%N) (toks_at pre (u ++ q2)))) as F2.
  { intros c v -> N. cbn [app]. rewrite toks_cons. intros [e F]. unfold p_ignored, p_map, p_none_of, p_filter in F.
    destruct (N.eqb_spec c 0x2A%N); [congruence|]. discriminate F. }
  unfold ml_item. destruct B as [|s v B1 B2|c v B1 N1 N2|v B1 N1].
  - split; [|left; reflexivity]. apply at_choice; [exact T|exact V0|].
    intros p [<-|[<-|[<-|[]]]].
    + eapply at_weaken; [|apply at_ml_other; [exact T|exact V0|discriminate]]. intros m q' a _ [].
    + eapply at_weaken; [|exact P2]. intros m q' a X (c & -> & N). cbn in X. injection X as X _. exfalso. apply N. symmetry. exact X.
    + eapply at_weaken; [|apply (P3 _ eq_refl)]. intros m q' a X (-> & N). cbn in X. injection X as <-. exfalso. apply N. reflexivity.
  - destruct B1 as [w B1]. rewrite <- app_assoc in T. rewrite app_length in L. rewrite <- (app_assoc _ v q2).
    assert (~ failed (ml_comment_rec n (toks_at pre ((str "/*" ++ w) ++ v ++ q2)))) as NF.
    { rewrite toks_app. intros F. eapply succ_failed; [|exact F]. apply (proj1 ml_complete_both (str "/*" ++ w) (Block true w B1)).
      - apply chars_toks.
      - lia. }
    split.
    + apply (at_choice_pick _ [] (ml_comment_rec n)); [constructor|exact NF|].
      eapply at_weaken; [|apply IH; [exact T|exact B1|lia|]].
      * intros m q' a X ->. apply app_inv_head in X. exists v. auto.
      * intros m1 m2 X. apply (HV m1 (m2 ++ v)). rewrite app_assoc, <- X. reflexivity.
    + right. apply (choice_not_failed (ml_comment_rec n)); [left; reflexivity|exact NF].
  - assert (failed (ml_comment_rec n (toks_at pre ((c :: v) ++ q2)))) as F1.
    { apply ml_rec_failed. rewrite chars_toks. intros [r X]. injection X as -> X.
      apply (N2 eq_refl eq_refl). pose proof (rest_ne _ _ B1) as NE.
      destruct v as [|d v]; [congruence|]. injection X as ->. reflexivity. }
    split.
    + apply (at_choice_pick _ [ml_comment_rec n] (p_ignored (p_none_of 0x2A%N))); [repeat constructor; exact F1|eapply F2; [reflexivity|exact N1]|].
      eapply at_weaken; [|exact P2]. intros m q' a X (d & -> & _). injection X as <- X. exists v. auto.
    + right. eapply choice_not_failed; [right; left; reflexivity|]. eapply F2; [reflexivity|exact N1].
  - assert (failed (ml_comment_rec n (toks_at pre ((0x2A%N :: v) ++ q2)))) as F1.
    { apply ml_rec_failed. rewrite chars_toks. intros [r X]. discriminate X. }
    assert (failed (p_ignored (p_none_of 0x2A%N) (toks_at pre ((0x2A%N :: v) ++ q2)))) as F3.
    { cbn [app]. rewrite toks_cons. eexists. reflexivity. }
    pose proof (rest_ne _ _ B1) as NE. destruct v as [|d v]; [congruence|].
    assert (~ failed (p_ignored (p_then_ignore (p_just 0x2A%N) (p_rewind (p_none_of 0x2F%N))) (toks_at pre ((0x2A%N :: d :: v) ++ q2)))) as F4.
    { cbn [app]. rewrite !toks_cons. intros [e F].
      unfold p_ignored, p_then_ignore, p_then, p_bind, p_map, p_rewind, p_none_of, p_just, p_filter in F.
      cbn [N.eqb Pos.eqb r_out] in F. destruct (N.eqb_spec d 0x2F%N) as [->|_]; [apply N1; reflexivity|]. discriminate F. }
    split.
    + apply (at_choice_pick _ [ml_comment_rec n; p_ignored (p_none_of 0x2A%N)]
               (p_ignored (p_then_ignore (p_just 0x2A%N) (p_rewind (p_none_of 0x2F%N)))) []).
      * constructor; [exact F1|]. constructor; [exact F3|constructor].
      * exact F4.
      * eapply at_weaken; [|apply (P3 _ eq_refl)]. intros m q' a X (-> & _). injection X as <-. exists (d :: v). auto.
    + right. eapply choice_not_failed; [right; right; left; reflexivity|exact F4].
Qed.

Lemma at_ml_closed n : forall pre w q2, t = pre ++ (str "/*" ++ w) ++ q2 -> block_rest true w ->
  List.length (str "/*" ++ w) <= n ->
  (forall m1 m2, str "/*" ++ w = m1 ++ m2 -> V (pre ++ m1)) ->
  at_ (ml_comment_rec n) pre ((str "/*" ++ w) ++ q2) (fun m q' _ => m = str "/*" ++ w).
Proof.
  induction n as [|n IH]; intros pre w q2 T B L HV; [cbn in L; lia|].
  rewrite ml_rec_eq. unfold p_delimited.
  assert (HV' : forall m1 m2, w = m1 ++ m2 -> V ((pre ++ str "/*") ++ m1)).
  { intros m1 m2 ->. rewrite <- app_assoc. apply (HV (str "/*" ++ m1) m2). rewrite <- app_assoc. reflexivity. }
  set (body := p_ignored (p_repeated (ml_item (ml_comment_rec n)))).
  assert (at_ (p_ignore_then (begin_comment 0x2A%N) body) pre ((str "/*" ++ w) ++ q2)
    (fun m q' _ => str "/*" ++ w = m ++ str "*/")) as P.
  { eapply at_map; [|apply at_bind with (Q := fun m q' _ => m = str "/*")
      (Q' := fun _ _ m q' _ => w = m ++ str "*/")]; [|exact T| |].
    - intros m q' a _ (m1 & m2 & -> & -> & ->). rewrite <- app_assoc. reflexivity.
    - eapply at_weaken; [|apply (proj2 (okv_begin 0x2A%N)); [exact T|]].
      + intros m q' a X [[s P] F]. cbn [str app] in X.
        assert (q' <> [] \/ q' = []) as [N|N] by (destruct q'; [right; reflexivity|left; discriminate]).
        * specialize (F N). unfold word in F. rewrite <- F. reflexivity.
        * subst q'. rewrite app_nil_r in X. unfold word in P. subst m.
          cbn in P. injection P as P. symmetry in P. apply app_eq_nil in P. destruct P as [P _]. apply app_eq_nil in P.
          pose proof (rest_ne _ _ B). tauto.
      + intros m [s P] N. unfold word in P.
        destruct m as [|x [|y m]].
        * apply (HV [] (str "/*" ++ w)). reflexivity.
        * injection P as <- P. apply (HV (str "/") (str "*" ++ w)). reflexivity.
        * injection P as <- <- P. symmetry in P. apply app_eq_nil in P. destruct P as [-> _].
          apply (HV (str "/*") w). reflexivity.
    - intros m q' a X T' ->. rewrite <- app_assoc in X. apply app_inv_head in X. subst q'.
      apply at_map with (Q := fun m _ _ => w = m ++ str "*/"); [auto|].
      unfold p_repeated.
      destruct (proj2 ml_complete_both w B n (toks_at (pre ++ str "/*") w) (toks_at ((pre ++ str "/*") ++ w) q2))
        as (v & e & l & E1 & E2 & Ch).
      { apply chars_toks. }
      { cbn in L. lia. }
      assert (succ (p_repeat 0 None (ml_item (ml_comment_rec n)) (toks_at (pre ++ str "/*") (w ++ q2))) l
                (e ++ toks_at ((pre ++ str "/*") ++ w) q2)) as Sc.
      { rewrite toks_app. apply succ_repeated; [exact Ch|].
        destruct e as [|[x1 y1] [|[x2 y2] [|]]]; try discriminate E2. injection E2 as -> ->. apply ml_item_end. }
      eapply at_weaken; [|eapply at_succ; [exact Sc|]; eapply at_repeat with (least := 0)
        (J := fun _ ms q' => exists u, w = ms ++ u /\ q' = u ++ q2 /\ block_rest true u)].
      + intros m q' l' X [[(u & -> & -> & Bu) _] [_ G]].
        apply (f_equal chars) in G. rewrite chars_app, !chars_toks, E2 in G. apply app_inv_tail in G. rewrite G. reflexivity.
      + exact T'.
      + exists w. auto.
      + intros outs ms q' X T2 (u & -> & -> & Bu) _.
        eapply at_weaken; [|apply (at_ml_item n IH ((pre ++ str "/*") ++ ms) u q2 T2 Bu)].
        * intros m q' a' _ (u' & -> & -> & Bu'). exists u'. rewrite app_assoc. auto.
        * cbn in L. rewrite app_length in L. lia.
        * intros m1 m2 ->. rewrite <- app_assoc. apply (HV' (ms ++ m1) m2). rewrite app_assoc. reflexivity. }
  eapply at_map; [|apply at_bind with (Q := fun m q' _ => str "/*" ++ w = m ++ str "*/")
      (Q' := fun _ _ m q' _ => m = str "*/")]; [|exact T|exact P|].
  - intros m q' a _ (m1 & m2 & -> & -> & ->). reflexivity.
  - intros m q' a X T' Y. rewrite Y, <- app_assoc in X. apply app_inv_head in X. subst q'.
    eapply at_weaken; [|apply at_just_str; [exact T'|]]; [auto|].
    intros m' N [s W]. unfold word in W. rewrite <- app_assoc. apply (HV (m ++ m') s). rewrite Y, W, app_assoc. reflexivity.
Qed.

Lemma rest_unique w1 w2 w3 w4 : w1 ++ w2 = w3 ++ w4 -> block_rest true w1 -> block_rest true w3 -> w2 = w4.
Proof.
  intros X B1 B3.
  assert (forall a b, block_rest true a -> a ++ b = w1 ++ w2 ->
    succ (ml_comment_rec (S (S (List.length (w1 ++ w2)))) (toks_at [] (str "/*" ++ w1 ++ w2))) tt
      (toks_at (str "/*" ++ a) b)) as H.
  { intros a b B Y. rewrite <- Y, app_assoc, toks_app.
    apply (proj1 ml_complete_both (str "/*" ++ a) (Block true a B)); [apply chars_toks|].
    cbn [str List.length app]. rewrite app_length. cbn. lia. }
  pose proof (H w1 w2 B1 eq_refl) as H1. pose proof (H w3 w4 B3 (eq_sym X)) as H3.
  destruct H1 as [_ [al1 H1]], H3 as [_ [al3 H3]]. rewrite H1 in H3. injection H3 as H3 _.
  apply (f_equal chars) in H3. rewrite !chars_toks in H3. exact H3.
Qed.

Lemma closed_dec w : (exists w1 w2, w = w1 ++ w2 /\ block_rest true w1)
  \/ (forall w1 w2, w = w1 ++ w2 -> ~ block_rest true w1).
Proof.
  destruct (block_extend (S (List.length w)) w) as [H|[s B]]; [lia|auto|].
  destruct s as [|c s].
  - left. exists w, []. rewrite app_nil_r in *. auto.
  - right. intros w1 w2 -> B1.
    pose proof (rest_unique ((w1 ++ w2) ++ c :: s) [] w1 (w2 ++ c :: s)) as X.
    rewrite app_nil_r, <- app_assoc in X. rewrite <- app_assoc in B. specialize (X eq_refl B B1).
    symmetry in X. apply app_eq_nil in X. destruct X; discriminate.
Qed.

Lemma unclosed_at pre q e what at_open open close pre0 q0 e' :
  t = pre ++ q -> t = pre0 ++ q0 -> V pre0 -> sp_start at_open = byte_len pre0 -> gl e ->
  is_eoi_error (l_err e) = true ->
  merge (l_err e) (EUnclosed what at_open open (sp_at_end (span_since (toks_at pre q) (l_rem e))) close TEoi) = Some e' ->
  gl (Located (l_rem e) e').
Proof.
  intros T T0 HV S (P & q1 & G1 & G2 & G3 & G4 & G5) Z M. destruct (G4 Z) as [-> Vt].
  rewrite (end_at t pre q _ T G2) in M.
  destruct (l_err e) as [lab sp found exp| | |]; try discriminate Z. cbn in M. injection M as <-.
  exists P, []. split; [exact G1|]. split; [exact G2|]. split; [|split; [discriminate|exact I]].
  cbn. constructor; [exists pre0; split; [split; [exists q0; exact T0|exact S]|exact HV]|].
  constructor; [|constructor]. exists t. split; [split; [exists []; rewrite app_nil_r; reflexivity|reflexivity]|exact Vt].
Qed.

Lemma inh_block : inhabited (block false).
Proof. exists (str "/*" ++ str "*/"). constructor. constructor. Qed.

Lemma short_block m s : str "/*" = m ++ s -> pfx (block false) m.
Proof. intros X. exists (s ++ str "*/"). rewrite app_assoc, <- X. constructor. constructor. Qed.

Lemma opened_cases m : pfx opened m -> (exists s, str "/*" = m ++ s) \/ (exists m', m' <> [] /\ m = str "/*" ++ m').
Proof.
  intros [s H]. inversion H as [a b <- _ X].
  destruct m as [|x [|y m]]; [left; eexists; reflexivity|left; injection X as <- X; eexists; reflexivity|].
  injection X as <- <- X. destruct m as [|z m]; [left; exists []; reflexivity|].
  right. exists (z :: m). split; [discriminate|reflexivity].
Qed.

Lemma okv_ml_comment : okv (block false) ml_comment.
Proof.
  split; [apply inh_block|]. intros pre q T R.
  assert (V pre) as V0 by (eapply room_here; [apply inh_block|exact R]).
  eapply at_weaken with (Q := fun m q' _ => True /\ block false m); [intros m q' a _ [_ H]; apply K_full, H|].
  apply at_sound with (R := fun m _ => block false m);
    [apply quiet_ml_comment|apply S_ml_comment|intros ts a rest G; eapply ml_comment_sound, G|].
  unfold LaxCalc.at_, ml_comment. apply at_map_err_with_span.
  - intros e e' O G M. unfold ml_comment_err in M.
    destruct (is_eoi_error (l_err e)) eqn:Z; cbn [andb] in M; [|injection M as <-; destruct e; exact G].
    destruct (2 <? _); [|injection M as <-; destruct e; exact G].
    eapply unclosed_at; [exact T|exact T|exact V0| |exact G|exact Z|exact M].
    rewrite (since_eq t pre q _ T). reflexivity.
  - set (n := S (List.length (toks_at pre q))).
    assert ((forall m, near q m -> pfx opened m -> pfx (block false) m) ->
      at_ (ml_comment_rec n) pre q (fun _ _ _ => True)) as Open.
    { intros H. eapply at_weaken; [|apply (proj2 (okv_ml_rec n)); [exact T|]]; [auto|].
      intros m P N. apply R; [apply H; assumption|exact N]. }
    destruct (prefix_dec (str "/*") q) as [[w X]|N].
    + destruct (closed_dec w) as [(w1 & w2 & -> & B)|NC].
      * subst q. rewrite (app_assoc (str "/*") w1 w2) in T, R, Open |- *. eapply at_weaken; [|apply at_ml_closed; [exact T|exact B| |]]; [auto| |].
        -- subst n. rewrite toks_len, !app_length. lia.
        -- intros m1 m2 X. apply R; [|rewrite X, <- app_assoc; apply near_prefix].
           exists m2. rewrite <- X. apply block_relax. constructor. exact B.
      * apply Open. intros m Nm P. destruct (opened_cases m P) as [[s Y]|(m' & Ne & ->)]; [eapply short_block, Y|].
        apply (open_pfx w); [exact NC|]. subst q. destruct Nm as (a & b & A1 & A2).
        destruct A2 as [<-|(x & Nb & A2)].
        -- rewrite <- app_assoc in A1. apply app_inv_head in A1. subst w. apply near_prefix.
        -- destruct m' as [|y m'] using rev_ind; [congruence|]. rewrite app_assoc in A2. apply app_inj_tail in A2.
           destruct A2 as [<- <-]. rewrite <- app_assoc in A1. apply app_inv_head in A1. subst w.
           destruct b as [|c b]; [congruence|]. apply near_instead.
    + apply Open. intros m Nm P. destruct (opened_cases m P) as [[s Y]|(m' & Ne & ->)]; [eapply short_block, Y|].
      exfalso. apply N. destruct Nm as (a & b & -> & A2). destruct A2 as [<-|(x & Nb & A2)].
      * exists (m' ++ b). rewrite app_assoc. reflexivity.
      * destruct m' as [|y m'] using rev_ind; [congruence|]. rewrite app_assoc in A2. apply app_inj_tail in A2.
        destruct A2 as [<- _]. exists (m' ++ b). rewrite app_assoc. reflexivity.
Qed.

Lemma okv_wss : okv (star lax_ws) ws.
Proof.
  unfold ws. apply okv_tame; [apply tame_kind; discriminate|]. apply okv_or.
  - apply okv_ignored. eapply okv_weaken; [|apply okv_repeat1, okv_ws_char].
    intros s H. apply plus_star in H. eapply star_impl; [|exact H]. apply Alt_l.
  - eapply okv_weaken; [|apply okv_ml_comment]. intros s H. apply star_one. apply Alt_r. exact H.
Qed.

Lemma okv_wsp : okv (plus lax_ws) ws.
Proof.
  unfold ws. apply okv_tame; [apply tame_kind; discriminate|]. apply okv_or.
  - apply okv_ignored. eapply okv_weaken; [|apply okv_repeat1, okv_ws_char].
    intros s [a b A B]. constructor; [apply Alt_l, A|]. eapply star_impl; [|exact B]. apply Alt_l.
  - eapply okv_weaken; [|apply okv_ml_comment]. intros s H. apply plus_one. apply Alt_r. exact H.
Qed.

Lemma star_plus L s : star (plus L) s -> star L s.
Proof.
  induction 1 as [|a b A _ IH]; [constructor|]. apply star_app; [apply plus_star, A|exact IH].
Qed.

Lemma plus_plus L s : plus (plus L) s -> plus L s.
Proof.
  intros [a b [a1 a2 A1 A2] B]. rewrite <- app_assoc. constructor; [exact A1|].
  apply star_app; [exact A2|apply star_plus, B].
Qed.

Lemma okv_spaces L {A} (p : parser span A) : okv (plus L) p -> okv (star L) (p_repeated p).
Proof. intros P. eapply okv_weaken; [|apply okv_repeat, P]. apply star_plus. Qed.

Lemma okv_spaces1 L {A} (p : parser span A) : okv (plus L) p -> okv (plus L) (p_repeat 1 None p).
Proof. intros P. eapply okv_weaken; [|apply okv_repeat1, P]. apply plus_plus. Qed.

Lemma no_newline_app a b : no_newline a -> no_newline b -> no_newline (a ++ b).
Proof. unfold no_newline. intros A B. apply Forall_app. auto. Qed.

Lemma okv_comment : okv lax_comment comment.
Proof.
  unfold comment. apply okv_ignored, okv_then; [apply (okv_begin 0x2F%N)|].
  split.
  - destruct inh_newline as [s H]. exists ([] ++ s). constructor; [constructor|exact H].
  - intros pre q T R. eapply at_take_until with (J := fun ms _ => no_newline ms); [exact T|constructor|].
    intros ms q' X T' HJ. split.
    + apply at_or.
      * eapply okv_step with (La := no_newline); [apply okv_newline| |exact T'|apply K_full, HJ|rewrite <- X; exact R].
        intros a b. apply Cat.
      * eapply at_weaken; [|apply at_end; [exact T'|]].
        -- intros m q'' a Y [-> ->]. rewrite app_nil_r. split; [|congruence].
           apply pfx_cat_l; [apply inh_newline|]. apply pfx_self, HJ.
        -- apply (room_read V (cat no_newline lax_newline) pre ms q'); [rewrite <- X; exact R|]. apply pfx_cat_l; [apply inh_newline|]. apply pfx_self, HJ.
    + intros c q'' -> F. apply no_newline_app; [exact HJ|]. constructor; [|constructor].
      intros N. destruct (newline_some (E := ErrAt.E t) c (Span (byte_len (pre ++ ms)) (byte_len ((pre ++ ms) ++ [c])))
        (toks_at ((pre ++ ms) ++ [c]) q'') N) as [r S]. rewrite toks_cons in F.
      eapply succ_failed; [|exact F]. apply succ_or_l. exact S.
Qed.

Lemma okv_esc_line : okv lax_escline esc_line.
Proof.
  unfold esc_line. eapply okv_weaken; [|apply okv_ignore_then; [apply okv_ignore_then; [apply okv_just|apply okv_spaces, okv_wsp]
    |apply okv_alt; [apply okv_comment|apply okv_newline]]].
  intros s [a b [a1 a2 A1 A2] B]. rewrite <- app_assoc. constructor; [exact A1|]. constructor; assumption.
Qed.

Lemma okv_nspace : okv (plus lax_nspace) node_space.
Proof.
  unfold node_space. apply okv_or.
  - eapply okv_weaken; [|apply okv_wsp]. intros s [a b A B]. constructor; [apply Alt_l, A|].
    eapply star_impl; [|exact B]. apply Alt_l.
  - eapply okv_weaken; [|apply okv_esc_line]. intros s H. apply plus_one, Alt_r, H.
Qed.

Lemma okv_nspaces : okv (star lax_nspace) (p_repeated node_space).
Proof. apply okv_spaces, okv_nspace. Qed.

Lemma okv_nspaces1 : okv (plus lax_nspace) (p_repeat 1 None node_space).
Proof. apply okv_spaces1, okv_nspace. Qed.

Lemma okv_lspaces : okv (star lax_lspace) (p_repeated line_space).
Proof.
  apply okv_spaces. unfold line_space. apply okv_or; [apply okv_or|].
  - eapply okv_weaken; [|apply okv_newline]. intros s H. apply plus_one, Alt_l, H.
  - eapply okv_weaken; [|apply okv_wsp]. intros s [a b A B]. constructor; [apply Alt_r, Alt_l, A|].
    eapply star_impl; [|exact B]. intros u U. apply Alt_r, Alt_l, U.
  - eapply okv_weaken; [|apply okv_comment]. intros s H. apply plus_one, Alt_r, Alt_r, H.
Qed.

Lemma inh_terminator : inhabited lax_terminator.
Proof. exists [0x3B%N]. apply Alt_r, Alt_r. reflexivity. Qed.

Lemma okv_terminator : okv lax_terminator node_terminator.
Proof.
  unfold node_terminator. apply okv_choice; [apply inh_terminator|]. intros p [<-|[<-|[<-|[<-|[]]]]].
  - eapply okv_weaken; [|apply okv_newline]. apply Alt_l.
  - eapply okv_weaken; [|apply okv_comment]. intros s H. apply Alt_r, Alt_l, H.
  - apply okv_ignored. eapply okv_weaken; [|apply okv_just]. intros s H. apply Alt_r, Alt_r, H.
  - split; [apply inh_terminator|]. intros pre q T R.
    eapply at_weaken; [|apply at_end; [exact T|eapply room_here; [apply inh_terminator|exact R]]].
    intros m q' a _ [-> ->]. split; [apply pfx_nil, inh_terminator|congruence].
Qed.

Lemma okv_slash : okv lax_slashdash (p_then_ignore (begin_comment 0x2D%N) (p_repeated node_space)).
Proof. apply okv_then_ignore; [apply (okv_begin 0x2D%N)|apply okv_nspaces]. Qed.

Lemma okv_slashdash : okv (opt lax_slashdash) slashdash.
Proof. apply okv_or_not, okv_slash. Qed.

End LaxGrammar.
