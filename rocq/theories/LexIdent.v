(** Identifiers, keywords, literals and type names. *)

From Coq Require Import NArith ZArith PeanoNat List Bool String Lia ZifyBool.
From Verif Require Import Chars Ast Errors Chumsky Spans Grammar Safe GrammarSafe
  Near GrammarNear Kdl KdlChars Good LexSpace LexLit.
Import ListNotations.
Local Open Scope list_scope.

Ltac ch := rewrite ?chars_c, ?chars_app, ?chars_c, ?chars_app, ?chars_c, ?chars_app,
  ?chars_c, ?chars_0; cbn [fst].

Section Ident.
Context {Sp : Type} {E : env Sp}.

Notation parser := (parser Sp).
Notation toks := (toks Sp).
Notation len := (@List.length (tok Sp)).

Lemma one_plus_minus : one (@plus_minus Sp E) sign_char.
Proof.
  apply one_or; [apply quiet_just| |apply one_just|apply one_just].
  intros c. destruct (N.eq_dec c 0x2B); auto.
Qed.

Lemma one_id_char : one (@id_char Sp E) ident_char.
Proof. apply one_map_err, one_filter, id_char_spec. Qed.

Lemma one_id_sans_dig : one (@id_sans_dig Sp E) ident_start.
Proof. apply one_map_err, one_filter, id_sans_dig_spec. Qed.

Lemma one_id_sans_sign_dig : one (@id_sans_sign_dig Sp E) (fun c => ident_start c /\ ~ sign_char c).
Proof. apply one_map_err, one_filter, id_sans_sign_dig_spec. Qed.

Lemma ident_char_dec c : ident_char c \/ ~ ident_char c.
Proof. rewrite <- id_char_spec. destruct (is_id_char c); auto. Qed.

Lemma split_run (P : char -> Prop) : (forall c, P c \/ ~ P c) ->
  forall ts : toks, exists s r, ts = s ++ r /\ Forall P (chars s) /\ stop P (chars r).
Proof.
  intros D. induction ts as [|[c sp] ts IH].
  - exists [], []. split; [reflexivity|]. split; [constructor|exact I].
  - destruct (D c) as [X|X].
    + destruct IH as [s [r [-> [F R]]]]. exists ((c, sp) :: s), r.
      split; [reflexivity|]. split; [constructor; auto|exact R].
    + exists [], ((c, sp) :: ts). split; [reflexivity|]. split; [constructor|exact X].
Qed.

(** ** Bare identifiers *)

Lemma text_eqb_spec a b : text_eqb a b = true <-> a = b.
Proof. unfold text_eqb. destruct (list_eq_dec N.eq_dec a b); split; congruence. Qed.

Lemma not_keyword_ok s (sp : Sp) t : not_keyword s sp = inl t <-> t = s /\ ~ In s keywords.
Proof.
  unfold not_keyword, keywords.
  destruct (text_eqb s (str "true")) eqn:A; [apply text_eqb_spec in A|].
  { split; [discriminate|]. intros [_ H]. exfalso. apply H. left. auto. }
  destruct (text_eqb s (str "false")) eqn:B; [apply text_eqb_spec in B|].
  { split; [discriminate|]. intros [_ H]. exfalso. apply H. right. left. auto. }
  destruct (text_eqb s (str "null")) eqn:C; [apply text_eqb_spec in C|].
  { split; [discriminate|]. intros [_ H]. exfalso. apply H. right. right. left. auto. }
  split.
  - intros H. inversion H; subst. split; [reflexivity|].
    intros [X|[X|[X|[]]]]; subst; [clear -A|clear -B|clear -C];
      match goal with H : text_eqb ?x ?x = false |- _ =>
        assert (text_eqb x x = true) by (apply text_eqb_spec; reflexivity); congruence end.
  - intros [-> _]. reflexivity.
Qed.

Definition id_tail : parser text := p_repeated id_char.

Definition bare_a : parser text :=
  p_map cons2 (p_then plus_minus (p_map cons2 (p_then id_sans_dig id_tail))).
Definition bare_c : parser text := p_map cons2 (p_then id_sans_sign_dig id_tail).

Lemma bare_ident_eq : @bare_ident Sp E =
  p_try_map not_keyword (p_choice [bare_a; p_exactly 1 plus_minus; bare_c]).
Proof. reflexivity. Qed.

Lemma bare_a_sound ts t rest : good (bare_a ts) t rest ->
  exists c d s sp sq u, ts = (c, sp) :: (d, sq) :: u ++ rest /\ chars u = s
    /\ t = c :: d :: s /\ sign_char c /\ ident_start d /\ Forall ident_char s
    /\ stop ident_char (chars rest).
Proof.
  unfold bare_a. intros G. apply good_map in G. destruct G as [x [G ->]].
  apply good_then in G. destruct G as [c [y [r1 [G1 [G ->]]]]].
  apply good_map in G. destruct G as [z [G ->]].
  apply good_then in G. destruct G as [d [s [r2 [G2 [G ->]]]]].
  apply one_plus_minus in G1. destruct G1 as [sp [-> C]].
  apply one_id_sans_dig in G2. destruct G2 as [sq [-> D]].
  apply (repeated_one_sound _ _ _ _ _ one_id_char) in G.
  destruct G as [u [-> [<- [F R]]]].
  exists c, d, (chars u), sp, sq, u. repeat split; auto; apply D.
Qed.

Lemma bare_c_sound ts t rest : good (bare_c ts) t rest ->
  exists d s sp u, ts = (d, sp) :: u ++ rest /\ chars u = s
    /\ t = d :: s /\ ident_start d /\ ~ sign_char d /\ Forall ident_char s
    /\ stop ident_char (chars rest).
Proof.
  unfold bare_c. intros G. apply good_map in G. destruct G as [x [G ->]].
  apply good_then in G. destruct G as [d [s [r2 [G2 [G ->]]]]].
  apply one_id_sans_sign_dig in G2. destruct G2 as [sq [-> [D N]]].
  apply (repeated_one_sound _ _ _ _ _ one_id_char) in G.
  destruct G as [u [-> [<- [F R]]]].
  exists d, (chars u), sq, u. repeat split; auto; apply D.
Qed.

Lemma bare_a_complete c d sp sq u rest : sign_char c -> ident_start d ->
  Forall ident_char (chars u) -> stop ident_char (chars rest) ->
  succ (bare_a ((c, sp) :: (d, sq) :: u ++ rest)) (c :: d :: chars u) rest.
Proof.
  intros C D F R. unfold bare_a. apply (succ_map cons2 _ _ (c, d :: chars u)).
  eapply succ_then; [apply one_plus_minus; exact C|].
  apply (succ_map cons2 _ _ (d, chars u)).
  eapply succ_then; [apply one_id_sans_dig; exact D|].
  apply (repeated_one_complete _ _ _ _ one_id_char); auto.
Qed.

Lemma bare_c_complete d sp u rest : ident_start d -> ~ sign_char d ->
  Forall ident_char (chars u) -> stop ident_char (chars rest) ->
  succ (bare_c ((d, sp) :: u ++ rest)) (d :: chars u) rest.
Proof.
  intros D N F R. unfold bare_c.
  apply (succ_map cons2 _ _ (d, chars u)).
  eapply succ_then; [apply one_id_sans_sign_dig; auto|].
  apply (repeated_one_complete _ _ _ _ one_id_char); auto.
Qed.

Lemma bare_a_failed c sp rest : stop ident_start (chars rest) ->
  failed (bare_a ((c, sp) :: rest)).
Proof.
  intros H. unfold bare_a. apply failed_map.
  destruct (out_dec (plus_minus ((c, sp) :: rest))) as [F|[a [r [alt O]]]].
  - apply failed_then1, F.
  - assert (sign_char c) as C.
    { assert (sign_char c \/ ~ sign_char c) as [K|K]; [|exact K|].
      - unfold sign_char. lia.
      - exfalso. destruct one_plus_minus as [_ [_ P]].
        destruct (proj2 (P ((c, sp) :: rest)) K) as [e X]. congruence. }
    eapply failed_then2; [apply one_plus_minus; exact C|].
    apply failed_map, failed_then1, one_id_sans_dig, H.
Qed.

Lemma bare_a_failed_hd ts : stop sign_char (chars ts) -> failed (bare_a ts).
Proof. intros H. apply failed_map, failed_then1, one_plus_minus, H. Qed.

Lemma stop_end s (rest : text) : stop ident_char rest -> ~ sign_text s -> bare_end s rest.
Proof.
  intros H N. unfold bare_end, stop in *. destruct rest; [exact I|]. tauto.
Qed.

Lemma bare_ident_sound ts t rest : good (bare_ident ts) t rest ->
  exists s, ts = s ++ rest /\ chars s = t /\ bare_text t /\ bare_end t (chars rest).
Proof.
  rewrite bare_ident_eq. intros G. apply good_try_map in G. destruct G as [t' [G X]].
  apply not_keyword_ok in X. destruct X as [-> K].
  apply good_choice3 in G. destruct G as [G|[[F G]|[_ [_ G]]]].
  - apply bare_a_sound in G.
    destruct G as [c [d [s [sp [sq [u [-> [<- [-> [C [D [Fs R]]]]]]]]]]]].
    exists ((c, sp) :: (d, sq) :: u). split; [reflexivity|]. split; [reflexivity|].
    split; [constructor; auto|]. apply stop_end; [exact R|].
    intros [x [_ Y]]. discriminate.
  - apply good_exactly in G. destruct G as [Ch L].
    apply (chain_one _ _ one_plus_minus) in Ch. destruct Ch as [s [-> [<- Fs]]].
    destruct s as [|[c sp] [|y s]]; try discriminate.
    rewrite chars_c, chars_0 in *. cbn [fst] in *.
    exists [(c, sp)]. split; [reflexivity|]. split; [reflexivity|].
    inversion Fs as [|? ? C _]; subst. split; [constructor; exact C|].
    unfold bare_end. destruct (chars rest) as [|d cr] eqn:Q; [exact I|]. split.
    + intros _ D. apply chars_cons in Q. destruct Q as [sq [r [-> Q]]].
      destruct (split_run ident_char ident_char_dec r) as [u [v [-> [Fu Rv]]]].
      eapply succ_failed; [|exact F]. cbn [app]. apply bare_a_complete; auto.
    + intros N _. apply N. exists c. auto.
  - apply bare_c_sound in G.
    destruct G as [d [s [sp [u [-> [<- [-> [D [N [Fs R]]]]]]]]]].
    exists ((d, sp) :: u). split; [reflexivity|]. split; [reflexivity|].
    split; [constructor; auto|]. apply stop_end; [exact R|].
    intros [x [C Y]]. inversion Y; subst. auto.
Qed.

Lemma sign_not_keyword c s : sign_char c -> ~ In (c :: s) keywords.
Proof. intros [->| ->] [X|[X|[X|[]]]]; discriminate. Qed.

Lemma bare_ident_complete s rest : bare_text (chars s) -> bare_end (chars s) (chars rest) ->
  succ (bare_ident (s ++ rest)) (chars s) rest.
Proof.
  rewrite bare_ident_eq. intros H B.
  assert (~ In (chars s) keywords /\
    succ (p_choice [bare_a; p_exactly 1 plus_minus; bare_c] (s ++ rest)) (chars s) rest)
    as [K S].
  2:{ eapply succ_try_map; [exact S|]. apply not_keyword_ok. auto. }
  unfold p_choice. remember (chars s) as cs. destruct H as [c C|c d t C D F|d t D N F K].
  - split; [apply sign_not_keyword, C|].
    symmetry in Heqcs. apply chars_singleton in Heqcs. destruct Heqcs as [sp ->]. cbn [app].
    apply succ_choice_miss.
    + apply bare_a_failed. unfold bare_end, stop in *. destruct (chars rest); [exact I|].
      apply B. exists c. auto.
    + intros ?. apply succ_choice_hit. apply succ_exactly with (l := [c]); [|reflexivity].
      apply (schain_one _ _ one_plus_minus [(c, sp)]). constructor; auto.
  - split; [apply sign_not_keyword, C|].
    symmetry in Heqcs. apply chars_cons in Heqcs. destruct Heqcs as [sp [u [-> Q]]].
    apply chars_cons in Q. destruct Q as [sq [v [-> <-]]]. cbn [app].
    apply succ_choice_hit, bare_a_complete; auto.
    unfold bare_end, stop in *. destruct (chars rest); [exact I|].
    apply B. intros [x [_ Y]]. discriminate.
  - split; [exact K|].
    symmetry in Heqcs. apply chars_cons in Heqcs. destruct Heqcs as [sp [u [-> <-]]]. cbn [app].
    apply succ_choice_miss; [apply bare_a_failed_hd; exact N|]. intros ?.
    apply succ_choice_miss.
    + apply (failed_repeat1 plus_minus _ (Some 1)); [discriminate|].
      apply one_plus_minus. exact N.
    + intros ?. apply succ_choice_hit, bare_c_complete; auto.
      unfold bare_end, stop in *. destruct (chars rest); [exact I|].
      apply B. intros [x [C Y]]. inversion Y; subst. auto.
Qed.

Lemma bare_start s : bare_text s ->
  exists c t, s = c :: t /\ (sign_char c \/ ident_start c).
Proof. destruct 1; eauto. Qed.

Lemma sign_start c : sign_char c -> ident_char c.
Proof.
  intros H. apply id_char_spec. destruct H; subst; reflexivity.
Qed.

Lemma start_ident c : ident_start c -> c = 0x21%N \/ ident_char c.
Proof. intros [H _]. exact H. Qed.

(** A bare identifier is no number. *)
Lemma bare_not_number s (rest : text) : bare_text s ->
  stop (digit_char 10) rest ->
  forall n r l, s ++ rest = n ++ r -> number_text n l -> False.
Proof.
  intros H R n r l X N.
  assert (exists sg d u, n = sg ++ d :: u /\ opt_sign_text sg /\ digit_char 10 d)
    as [sg [d [u [-> [O D]]]]].
  { destruct N as [sg x k q t t' A I T St|sg t t' A T St|sg t f e t' A T F Y Z St].
    - exists sg, 0x30%N, (x :: t). repeat split; auto. rewrite dec_digit_spec. lia.
    - destruct T as [d ds D F]. exists sg, d, ds. auto.
    - destruct T as [d ds D F']. exists sg, d, (ds ++ f ++ e). auto. }
  rewrite <- app_assoc in X.
  destruct H as [c C|c d' t C [_ D'] F|d' t [_ D'] N' F K]; destruct O as [|x X']; cbn [app] in X;
    inversion X; subst; auto.
  - rewrite dec_digit_spec in D. destruct C; subst; lia.
  - rewrite dec_digit_spec in D. destruct C; subst; lia.
Qed.

(** ** Identifiers *)

Lemma ident_eq : @ident Sp E = p_try_map not_number
    (p_choice [ p_map inl number; p_map inr bare_ident; p_map inr string_ ]).
Proof. reflexivity. Qed.

Lemma bare_ident_r sp (ts : toks) : exists t r, succ (bare_ident ((0x72%N, sp) :: ts)) t r.
Proof.
  destruct (split_run ident_char ident_char_dec ts) as [u [v [-> [Fu Rv]]]].
  exists (chars ((0x72%N, sp) :: u)), v.
  change ((0x72%N, sp) :: u ++ v) with (((0x72%N, sp) :: u) ++ v).
  assert (ident_start 0x72%N /\ ~ sign_char 0x72%N) as [A B].
  { apply id_sans_sign_dig_spec. reflexivity. }
  apply bare_ident_complete.
  - rewrite chars_c. cbn [fst]. constructor; auto.
    intros [X|[X|[X|[]]]]; discriminate.
  - apply stop_end; [exact Rv|]. intros [x [C Y]]. rewrite chars_c in Y.
    cbn [fst] in Y. inversion Y; subst. auto.
Qed.

Lemma ident_sound ts t rest : good (ident ts) t rest ->
  exists s, ts = s ++ rest /\ ident_at (chars s) (chars rest) t.
Proof.
  rewrite ident_eq. intros G. apply good_try_map in G. destruct G as [x [G X]].
  unfold not_number in X. destruct x as [l|t']; inversion X; subst.
  apply good_choice3 in G. destruct G as [G|[[_ G]|[_ [F G]]]];
    apply good_map in G; destruct G as [y [G Y]]; inversion Y; subst.
  - apply bare_ident_sound in G. destruct G as [s [-> [<- [B Be]]]].
    exists s. split; [reflexivity|]. constructor; auto.
  - apply string_sound in G. destruct G as [s [-> T]].
    exists s. split; [reflexivity|]. inversion T; subst.
    + exfalso. apply failed_map_inv in F.
      match goal with H : raw_text _ _ |- _ => apply raw_start in H; rename H into R end.
      destruct s as [|[c sp] s]; [discriminate|]. rewrite chars_c in R. cbn [hd_error fst] in R.
      inversion R; subst. destruct (bare_ident_r sp (s ++ rest)) as [t [r S]].
      eapply succ_failed; [exact S|exact F].
    + constructor 2. auto.
Qed.

Lemma ident_complete s rest t : ident_at (chars s) (chars rest) t ->
  stop (digit_char 10) (chars rest) ->
  succ (ident (s ++ rest)) t rest.
Proof.
  rewrite ident_eq. intros H R. remember (chars s) as cs. remember (chars rest) as cr.
  destruct H as [s' rest' B Be|s' rest' t T]; subst.
  - eapply succ_try_map with (a := inr (chars s)); [|reflexivity]. unfold p_choice.
    apply succ_choice_miss.
    + apply failed_map, number_failed. intros n r l X. rewrite chars_app in X.
      eapply bare_not_number; eauto.
    + intros ?. apply succ_choice_hit. apply (succ_map inr).
      apply bare_ident_complete; auto.
  - eapply succ_try_map with (a := inr t); [|reflexivity]. unfold p_choice.
    pose proof (hd_app _ (chars rest) _ (escaped_start _ _ T)) as Hd. rewrite <- chars_app in Hd.
    apply succ_choice_miss.
    + apply failed_map. eapply rej_failed_hd; [apply rej_number|exact Hd|reflexivity].
    + intros ?. apply succ_choice_miss.
      * apply failed_map. eapply rej_failed_hd; [apply rej_bare_ident|exact Hd|reflexivity].
      * intros ?. apply succ_choice_hit. apply (succ_map inr).
        apply string_complete. constructor 2. exact T.
Qed.

Lemma ident_at_hd s r r' t : hd_error r = hd_error r' -> ident_at s r t -> ident_at s r' t.
Proof.
  intros H. destruct 1 as [s rest B Be|s rest t T]; [|constructor 2; auto].
  constructor; [exact B|]. unfold bare_end in *. destruct rest, r'; inversion H; subst; auto.
Qed.

Lemma ident_at_start s r t : ident_at s r t ->
  exists c u, s = c :: u /\ (sign_char c \/ ident_start c \/ c = 0x22%N).
Proof.
  destruct 1 as [s rest B Be|s rest t T].
  - apply bare_start in B. destruct B as [c [u [-> H]]]. exists c, u. tauto.
  - apply escaped_start in T. destruct s as [|c u]; inversion T. exists 0x22%N, u. auto.
Qed.

(** ** Keywords and literals *)

Definition keyword_literals : list (text * literal) :=
  [(str "null", LNull); (str "true", LBool true); (str "false", LBool false)].

Lemma keyword1_sound s l ts l' rest : good (@keyword1 Sp E s l ts) l' rest ->
  exists u, ts = u ++ rest /\ chars u = str s /\ l' = l.
Proof.
  unfold keyword1. intros G. apply good_map in G. destruct G as [x [G ->]].
  apply good_map_err in G. apply good_just_str in G. destruct G as [u [-> X]]. eauto.
Qed.

Lemma keyword1_complete s l u rest : chars u = str s ->
  succ (@keyword1 Sp E s l (u ++ rest)) l rest.
Proof.
  intros X. unfold keyword1. apply (succ_map (fun _ => l) _ _ tt).
  apply succ_map_err, succ_just_str, X.
Qed.

Lemma keyword1_failed s l ts : ~ prefix (str s) (chars ts) -> failed (@keyword1 Sp E s l ts).
Proof. intros H. apply failed_map, failed_map_err, failed_just_str, H. Qed.

Lemma keyword_sound ts l rest : good (keyword ts) l rest ->
  exists s, ts = s ++ rest /\ In (chars s, l) keyword_literals.
Proof.
  unfold keyword, keyword_literals. intros G. apply good_choice3 in G.
  destruct G as [G|[[_ G]|[_ [_ G]]]]; apply keyword1_sound in G;
    destruct G as [u [-> [X ->]]]; exists u; (split; [reflexivity|]); rewrite X; cbn; tauto.
Qed.

Lemma keyword_complete s l rest : In (chars s, l) keyword_literals ->
  succ (keyword (s ++ rest)) l rest.
Proof.
  unfold keyword, keyword_literals, p_choice. intros [X|[X|[X|[]]]]; inversion X as [[Y Z]]; clear X.
  - apply succ_choice_hit, keyword1_complete. auto.
  - apply succ_choice_miss.
    + apply keyword1_failed. rewrite chars_app, <- Y. intros [c Q]. discriminate.
    + intros ?. apply succ_choice_hit, keyword1_complete. auto.
  - apply succ_choice_miss.
    + apply keyword1_failed. rewrite chars_app, <- Y. intros [c Q]. discriminate.
    + intros ?. apply succ_choice_miss.
      * apply keyword1_failed. rewrite chars_app, <- Y. intros [c Q]. discriminate.
      * intros ?. apply succ_choice_hit, keyword1_complete. auto.
Qed.

Lemma keyword_failed ts : (forall k, In k keywords -> ~ prefix k (chars ts)) ->
  failed (@keyword Sp E ts).
Proof.
  intros H. unfold keyword, p_choice.
  repeat (apply failed_choice; [apply keyword1_failed, H; cbn; tauto|intros ?]).
  apply failed_choice_nil.
Qed.

Lemma literal_eq : @literal_ Sp E = p_choice [ p_map LString string_; keyword; number ].
Proof. reflexivity. Qed.

Lemma literal_sound ts l rest : good (literal_ ts) l rest ->
  exists s, ts = s ++ rest /\ literal_text (chars s) l.
Proof.
  rewrite literal_eq. intros G. apply good_choice3 in G.
  destruct G as [G|[[_ G]|[_ [_ G]]]].
  - apply good_map in G. destruct G as [t [G ->]]. apply string_sound in G.
    destruct G as [s [-> X]]. exists s. split; [reflexivity|]. constructor. exact X.
  - apply keyword_sound in G. destruct G as [s [-> X]]. exists s. split; [reflexivity|].
    destruct X as [X|[X|[X|[]]]]; inversion X as [[Y Z]]; constructor.
  - apply number_sound in G. destruct G as [s [-> X]]. exists s. split; [reflexivity|].
    constructor 5. exact X.
Qed.

Lemma keyword_literal_complete s l (rest : toks) : In (chars s, l) keyword_literals ->
  succ (literal_ (s ++ rest)) l rest.
Proof.
  intros H. rewrite literal_eq. unfold p_choice. apply succ_choice_miss.
  - apply failed_map.
    assert (exists c, hd_error (chars s) = Some c /\ f_str c = false) as [c [X Y]].
    { destruct H as [X|[X|[X|[]]]]; inversion X as [[Y Z]]; eexists; split; reflexivity. }
    eapply rej_failed_hd; [apply rej_string| |exact Y]. rewrite chars_app. apply hd_app, X.
  - intros ?. apply succ_choice_hit, keyword_complete, H.
Qed.

Lemma literal_complete s l rest : literal_text (chars s) l -> num_stop (chars rest) ->
  succ (literal_ (s ++ rest)) l rest.
Proof.
  intros H R. remember (chars s) as cs.
  destruct H as [cs t T| | | |cs l N].
  - subst. rewrite literal_eq. unfold p_choice. apply succ_choice_hit.
    apply (succ_map LString). apply string_complete, T.
  - apply keyword_literal_complete. rewrite <- Heqcs. cbn. tauto.
  - apply keyword_literal_complete. rewrite <- Heqcs. cbn. tauto.
  - apply keyword_literal_complete. rewrite <- Heqcs. cbn. tauto.
  - subst. rewrite literal_eq. unfold p_choice.
    pose proof N as N2. apply number_start in N2. destruct N2 as [c [t [Hs C]]].
    assert (hd_error (chars (s ++ rest)) = Some c) as Hd.
    { rewrite chars_app, Hs. reflexivity. }
    assert (f_str c = false /\ f_kw c = false) as [F1 F2].
    { rewrite dec_digit_spec in C. unfold sign_char, f_str, f_kw in *. lia. }
    apply succ_choice_miss.
    + apply failed_map. eapply rej_failed_hd; [apply rej_string|exact Hd|exact F1].
    + intros ?. apply succ_choice_miss.
      * eapply rej_failed_hd; [apply rej_keyword|exact Hd|exact F2].
      * intros ?. apply succ_choice_hit, number_complete; auto.
Qed.

Lemma literal_start s l : literal_text s l ->
  exists c t, s = c :: t /\ f_lit c = true.
Proof.
  destruct 1 as [cs t T| | | |cs l N]; try (eexists; eexists; split; reflexivity).
  - apply string_start in T. destruct cs as [|c cs]; [destruct T; discriminate|].
    exists c, cs. split; [reflexivity|]. cbn [hd_error] in T. unfold f_lit, f_str.
    destruct T as [T|T]; inversion T; reflexivity.
  - apply number_start in N. destruct N as [c [t [-> C]]]. exists c, t. split; [reflexivity|].
    unfold f_lit, f_num. rewrite <- (is_digit_spec 10) in C by lia. unfold sign_char in C.
    destruct (is_digit 10 c); [rewrite !orb_true_r; reflexivity|]. lia.
Qed.

(** Literals do not begin where a property name does. *)
Lemma literal_failed_bare s (rest : toks) : bare_text (chars s) ->
  (forall k, In k keywords -> ~ prefix k (chars s)) ->
  hd_error (chars rest) = Some 0x3D%N ->
  failed (literal_ (s ++ rest)).
Proof.
  intros B K R. rewrite literal_eq. unfold p_choice.
  assert (~ In 0x22%N (chars s)) as Nq.
  { intros I. assert (Forall (fun c => c <> 0x22%N) (chars s)) as F.
    { assert (forall c, ident_char c -> c <> 0x22%N) as A.
      { intros c C ->. apply id_char_spec in C. discriminate. }
      assert (forall c, ident_start c -> c <> 0x22%N) as A2.
      { intros c C ->. apply id_sans_dig_spec in C. discriminate. }
      assert (forall c, sign_char c -> c <> 0x22%N) as A3.
      { intros c [->| ->]; discriminate. }
      destruct B; repeat constructor; eauto using Forall_impl. }
    rewrite Forall_forall in F. eapply F; eauto. }
  destruct (chars rest) as [|e cr] eqn:Er; inversion R; subst.
  apply failed_choice; [|intros ?; apply failed_choice; [|intros ?; apply failed_choice;
    [|intros ?; apply failed_choice_nil]]].
  - apply failed_map. unfold string_. apply failed_or.
    + destruct (failed_or_good raw_string (s ++ rest) quiet_raw_string S_raw_string)
        as [F|[a [r G]]]; [exact F|exfalso].
      apply raw_string_sound in G. destruct G as [u [X T]].
      apply (f_equal chars) in X. rewrite !chars_app, Er in X. destruct T as [n t _].
      (* the equals sign of the rest comes before any quote *)
      assert (forall (a b x y : text) n, a ++ 0x3D%N :: b = repeat 0x23%N n ++ 0x22%N :: x ->
        ~ In 0x22%N a -> False) as Z.
      { clear. induction a as [|c a IH]; intros b x y n H N.
        - destruct n; discriminate.
        - destruct n as [|n]; cbn in H; inversion H; subst.
          + apply N. left. reflexivity.
          + eapply (IH b x y n); [eassumption|]. intros I. apply N. right. exact I. }
      destruct (chars s) as [|c cs]; [discriminate|]. cbn [app] in X. inversion X as [[X1 X2]].
      rewrite <- !app_assoc in X2. cbn [app] in X2.
      eapply Z; [exact []|exact X2|]. intros I. apply Nq. right. exact I.
    + eapply (rej_failed (fun x => (x =? 0x22)%N)); [apply rej_escaped_string|].
      rewrite hd_chars, chars_app. destruct (chars s) as [|c cs]; [rewrite Er; reflexivity|].
      cbn [app]. apply N.eqb_neq. intros ->. apply Nq. left. reflexivity.
  - apply keyword_failed. intros k I [x X]. apply (K k I).
    rewrite chars_app, Er in X.
    assert (forall (k a b x : text), a ++ 0x3D%N :: b = k ++ x -> ~ In 0x3D%N k -> prefix k a) as Z.
    { clear. induction k as [|c k IH]; intros a b x H N.
      - exists a. reflexivity.
      - destruct a as [|d a]; cbn in H; inversion H; subst.
        + exfalso. apply N. left. reflexivity.
        + destruct (IH a b x) as [y ->]; [assumption|intros J; apply N; right; exact J|].
          exists y. reflexivity. }
    eapply Z; [exact X|]. destruct I as [<-|[<-|[<-|[]]]]; cbn; lia.
  - apply number_failed. intros n r l X. rewrite chars_app in X.
    eapply bare_not_number; [exact B| |exact X]. rewrite Er. simpl.
    rewrite dec_digit_spec. lia.
Qed.

(** ** Type names *)

Lemma builtin_from_str_spec t : match builtin_from_str t with
  | Some b => In (t, b) type_names /\ forall b', In (t, b') type_names -> b' = b
  | None => ~ In t (map fst type_names)
  end.
Proof.
  unfold builtin_from_str.
  repeat match goal with
  | |- context [text_eqb t ?x] =>
      destruct (text_eqb t x) eqn:?;
      [match goal with H : text_eqb t x = true |- _ => apply text_eqb_spec in H end; subst t;
       split; [cbn; tauto|];
       intros b' H; unfold type_names in H; cbn [In] in H;
       repeat (destruct H as [H|H]; [inversion H; reflexivity|]); destruct H|]
  end.
  intros H. unfold type_names in H. cbn [map fst In] in H.
  repeat (destruct H as [H|H];
    [subst t; match goal with H : text_eqb ?x ?x = false |- _ =>
        assert (text_eqb x x = true) by (apply text_eqb_spec; reflexivity); congruence end|]).
  destruct H.
Qed.

Lemma names_type_spec t ty : names_type t ty <-> ty = typename_from_string t.
Proof.
  pose proof (builtin_from_str_spec t) as H. unfold typename_from_string.
  destruct (builtin_from_str t) as [b|].
  - destruct H as [H1 H2]. split.
    + intros N. inversion N; subst; [f_equal; auto|].
      exfalso. match goal with X : ~ In _ _ |- _ => apply X end.
      apply (in_map fst) in H1. exact H1.
    + intros ->. constructor. exact H1.
  - split.
    + intros N. inversion N; subst; [|reflexivity].
      exfalso. apply H. match goal with X : In (t, _) _ |- _ => apply (in_map fst) in X; exact X end.
    + intros ->. constructor. exact H.
Qed.

Lemma type_name_sound ts ty rest : good (type_name ts) ty rest ->
  exists s, ts = s ++ rest /\ type_text (chars s) ty.
Proof.
  unfold type_name. intros G. apply good_map in G. destruct G as [t [G ->]].
  apply good_delimited in G. destruct G as [x [y [r1 [r2 [G1 [G2 G3]]]]]].
  apply good_just in G1. destruct G1 as [sp [-> ->]].
  apply good_just in G3. destruct G3 as [sq [-> ->]].
  apply ident_sound in G2. destruct G2 as [s [-> H]].
  exists ((0x28%N, sp) :: s ++ [(0x29%N, sq)]).
  split; [aa|]. ch. econstructor; [|apply names_type_spec; reflexivity].
  eapply ident_at_hd; [|exact H]. reflexivity.
Qed.

Lemma type_name_complete s ty rest : type_text (chars s) ty ->
  succ (type_name (s ++ rest)) ty rest.
Proof.
  intros H. remember (chars s) as cs. destruct H as [t n ty I N].
  symmetry in Heqcs. apply chars_cons in Heqcs. destruct Heqcs as [sp [u [-> X]]].
  apply chars_split in X. destruct X as [v [w [-> [<- X2]]]].
  apply chars_singleton in X2. destruct X2 as [sq ->].
  apply names_type_spec in N. subst. unfold type_name. apply succ_map.
  cbn [app]. rewrite <- app_assoc. cbn [app].
  eapply succ_delimited; [apply succ_just| |apply succ_just].
  apply ident_complete; [eapply ident_at_hd; [|exact I]; reflexivity|].
  ch. simpl. rewrite dec_digit_spec. lia.
Qed.

Lemma type_start s ty : type_text s ty -> exists t, s = 0x28%N :: t.
Proof. destruct 1. eauto. Qed.

Lemma type_name_failed ts : hd_error (chars ts) <> Some 0x28%N -> failed (@type_name Sp E ts).
Proof.
  intros H. unfold type_name. apply failed_map, failed_then_ignore1, failed_ignore_then1.
  apply failed_just_iff, H.
Qed.

End Ident.
