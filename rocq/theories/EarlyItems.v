(** Strings, numbers, identifiers and items: see EarlyGrammar.v. *)

From Coq Require Import NArith ZArith PeanoNat List Bool String Lia ZifyBool.
From Verif Require Import Chars Ast Errors Chumsky Spans Grammar Safe GrammarSafe Near GrammarNear Kdl KdlChars KdlText
  Good LexSpace LexLit LexIdent ItemProps EarlySpec EarlyCalc EarlyGrammar.
Import ListNotations.
Local Open Scope list_scope.

Local Existing Instance unit_env.

(** ** Escapes *)

Lemma bind_just {A} c (k : parser A) (x : tok unit) (ts : toks) : fst x = c ->
  r_out (p_ignore_then (p_just c) k (x :: ts)) = r_out (k ts).
Proof.
  destruct x as [d s]. cbn [fst]. intros ->. unfold p_ignore_then, p_map, p_then, p_bind. cbn [r_out p_just].
  rewrite N.eqb_refl. cbn [r_out]. destruct (r_out (k ts)) as [a r alt|e]; cbn [r_out lmax_opt].
  - cbn [merge_alts]. destruct alt; reflexivity.
  - reflexivity.
Qed.

Lemma ignore_then_err {A} c (k : parser A) (x : tok unit) (ts : toks) : fst x <> c ->
  exists e, r_out (p_ignore_then (p_just c) k (x :: ts)) = Err e /\ l_rem e = S (len ts).
Proof.
  destruct x as [d s]. cbn [fst]. intros N. unfold p_ignore_then, p_map, p_then, p_bind. cbn [r_out p_just].
  apply N.eqb_neq in N. rewrite N. cbn [r_out fail]. eexists. split; reflexivity.
Qed.

Lemma or_err {A} (p k : parser A) ts e e' : r_out (p ts) = Err e -> r_out (k ts) = Err e' ->
  exists e2, r_out (p_or p k ts) = Err e2 /\ l_rem e2 = Nat.min (l_rem e) (l_rem e').
Proof.
  intros P K. destruct (p_or_cases p k ts) as
    [(a & rest & alt & He & Ho & X)
    |[_ [(a & rest & alt & alt' & c & Ho & He & M & X)
    |[(a & rest & alt & alt' & c & Ho & M & X)
    |(ea & eb & Ha & Hb & X)]]]]; try congruence.
  rewrite P in Ha. rewrite K in Hb. inversion Ha; inversion Hb; subst ea eb.
  destruct X as [[-> L]|[[-> L]|(e2 & c & M & L & ->)]]; cbn [r_out]; eexists; (split; [reflexivity|]); try lia.
  apply lmax_rem in M. exact M.
Qed.

Lemma or_ok_l {A} (p k : parser A) ts a rest alt : r_errs (p ts) = [] -> r_out (p ts) = Ok a rest alt ->
  r_out (p_or p k ts) = Ok a rest alt.
Proof. intros Q P. unfold p_or. rewrite Q, P. exact P. Qed.

Lemma D_escape : D (p_ignore_then (p_just 0x5C%N) esc_char).
Proof.
  apply D_of; [apply S_ignore_then; auto with safe|]. intros m q q' T L.
  destruct m as [|x m].
  { exfalso. refine (low_nil _ _ _ L). apply fwd_safe, S_ignore_then; auto with safe. }
  cbn [app] in *. destruct (N.eq_dec (fst x) 0x5C%N) as [X|X].
  2:{ destruct (ignore_then_err 0x5C%N esc_char x (m ++ q) X) as (e & -> & _).
      destruct (ignore_then_err 0x5C%N esc_char x (m ++ q') X) as (e' & -> & _). exact I. }
  rewrite !bind_just in * by exact X. destruct m as [|y m].
  { exfalso. refine (low_nil _ _ _ L). apply (fwd_safe _ S_esc_char). }
  destruct (N.eq_dec (fst y) 0x75%N) as [Y|Y].
  - destruct T as (_ & _ & T & _). destruct (T [] (chars (m ++ q))) as (e & v & r & Es & E).
    { rewrite <- X, <- Y. reflexivity. }
    assert (chars ((y :: m) ++ q) = e ++ r) as E2 by (rewrite <- E, <- Y; reflexivity).
    apply chars_starts in E2. destruct E2 as (u & w & E2 & <- & <-).
    destruct (esc_char_complete u v w Es) as (_ & alt & Z). rewrite E2, Z in L |- *.
    destruct L as [L _]. destruct (cut_long _ _ _ _ E2 L) as (z & -> & -> & _).
    rewrite <- app_assoc. destruct (esc_char_complete u v (z ++ q') Es) as (_ & alt2 & ->). apply agree_same.
  - destruct y as [c s]. cbn [fst app] in *. destruct (esc_simple s c) as [v|e] eqn:Q.
    + assert (forall ts, r_out (esc_char (((c, s) : tok unit) :: ts)) = Ok v ts None) as H.
      { intros ts. unfold esc_char. apply or_ok_l; cbn [p_filter_map]; rewrite Q; reflexivity. }
      rewrite !H. apply agree_same.
    + assert (forall ts, exists e2, r_out (esc_char (((c, s) : tok unit) :: ts)) = Err e2) as H.
      { intros ts. unfold esc_char.
        match goal with |- context [p_ignore_then _ ?k] => destruct (ignore_then_err 0x75%N k (c, s) ts Y) as (e1 & E1 & _) end.
        edestruct @or_err as (e2 & E2 & _); [|exact E1|exists e2; exact E2].
        cbn [p_filter_map]. rewrite Q. reflexivity. }
      destruct (H (m ++ q)) as (e2 & ->), (H (m ++ q')) as (e3 & ->). exact I.
Qed.
#[export] Hint Resolve D_escape : early.

Lemma D_escaped_string : D escaped_string.
Proof.
  unfold escaped_string. apply D_ignore_then; [ds|]. apply D_map_err_with_span, D_then_ignore; [|ds].
  apply D_repeated; [apply D_or_quiet; [quiets|ds|apply D_escape]|]. apply eats_or; [apply eats_filter|].
  apply (eats_ignore_then 1 0); [apply eats_just|apply eats_esc_char].
Qed.
#[export] Hint Resolve D_escaped_string : early.

Lemma D_string : D string_.
Proof. unfold string_. ds. Qed.
#[export] Hint Resolve D_string : early.

(** ** Bare identifiers *)

Definition bare_inner : parser text :=
  p_choice
    [ p_map cons2 (p_then plus_minus (p_map cons2 (p_then id_sans_dig (p_repeated id_char))));
      p_exactly 1 plus_minus;
      p_map cons2 (p_then id_sans_sign_dig (p_repeated id_char)) ].

Lemma near_bare_inner : near 0 anyp bare_inner.
Proof.
  unfold bare_inner. apply near_choice. foralls.
  - apply near_map, near_then with (j := 0) (G := anyp).
    + apply near_plus_minus.
    + apply near_map, near_then with (j := 0) (G := anyp).
      * apply noalt_near, noalt_map_err, noalt_filter.
      * apply near_id_chars.
      * apply eats0, S_id_chars.
      * intros; exact I.
    + apply eats0, S_map, S_then; auto using S_id_chars with safe.
    + intros; exact I.
  - apply near_repeat.
    + apply near_plus_minus.
    + unfold plus_minus. apply enear_or; apply enear_just.
    + apply eats_plus_minus.
  - apply near_map, near_then with (j := 0) (G := anyp).
    + apply noalt_near, noalt_map_err, noalt_filter.
    + apply near_id_chars.
    + apply eats0, S_id_chars.
    + intros; exact I.
Qed.

Lemma D_plus_minus : D plus_minus.
Proof. unfold plus_minus. ds. Qed.
#[export] Hint Resolve D_plus_minus : early.

Lemma D_id_char : D id_char.
Proof. unfold id_char. ds. Qed.
#[export] Hint Resolve D_id_char : early.

Lemma enear_plus_minus F : enear 0 F plus_minus.
Proof. unfold plus_minus. apply enear_or; apply enear_just. Qed.

Lemma plus_minus_len ts a r alt : r_out (plus_minus ts) = Ok a r alt -> len ts = S (len r) /\ within 0 r alt.
Proof.
  intros H. split; [|apply (near_plus_minus _ _ _ _ H I)].
  unfold plus_minus in H. destruct (p_or_cases (p_just 0x2B%N) (p_just 0x2D%N) ts) as
    [(a1 & rest & alt1 & He & Ho & X)
    |[N [(a1 & rest & alt1 & alt' & c & Ho & He & M & X)
    |[(a1 & rest & alt1 & alt' & c & Ho & M & X)
    |(ea & eb & Ha & Hb & X)]]]].
  - rewrite X in H. rewrite Ho in H. inversion H; subst. apply just_len in Ho. lia.
  - rewrite X in H. inversion H; subst. apply just_len in Ho. lia.
  - rewrite X in H. inversion H; subst. apply just_len in Ho. lia.
  - destruct X as [[X L]|[[X L]|(e2 & c & M & L & X)]]; rewrite X in H; discriminate.
Qed.

Lemma D_bare_inner : D bare_inner.
Proof.
  unfold bare_inner. apply D_choice.
  { foralls; [unfold id_sans_dig; ds|apply D_repeat1; [auto|ds|apply eats_plus_minus]|unfold id_sans_sign_dig; ds]. }
  assert (eats 1 (p_map cons2 (p_then id_sans_sign_dig (p_repeated id_char)))) as E3.
  { apply eats_map, (eats_then 1 0); [apply eats_id_sans_sign_dig|apply eats0, S_id_chars]. }
  split; [|split; [|split; [|exact I]]].
  - assert (enear 1 anyp (p_map cons2 (p_then plus_minus (p_map cons2 (p_then id_sans_dig (p_repeated id_char)))))) as H.
    { apply enear_map, enear_bind with (j := 1) (G := anyp); [| | |lia].
      - apply enear_up, enear_plus_minus.
      - intros ts a r1 alt Q _. apply plus_minus_len in Q. destruct Q as [Q W]. split; [lia|]. split; [exact I|].
        destruct alt; simpl in *; [lia|exact I].
      - intros _. apply enear_map, enear_then_rep; [|intros ts; apply repeat0_ok].
        unfold id_sans_dig. apply enear_map_err, enear_filter. }
    intros ts e k a rest alt _ X [<-|[<-|[]]] Y; refine (kept_near _ _ _ _ _ _ _ H _ X Y); [|exact E3].
    unfold p_exactly. apply eats_repeat; [apply eats_plus_minus|auto].
  - assert (enear 1 anyp (p_exactly 1 plus_minus)) as H.
    { intros ts e Q _. destruct (r_out (plus_minus ts)) as [a r alt|e0] eqn:O.
      - exfalso. unfold p_exactly, p_repeat in Q. cbn [repeat_loop Nat.add] in Q. cbn in Q.
        rewrite O in Q. destruct alt; cbn in Q; discriminate.
      - unfold p_exactly, p_repeat in Q. cbn [repeat_loop Nat.add] in Q. cbn in Q. rewrite O in Q. cbn in Q.
        inversion Q; subst. assert (W := enear_plus_minus anyp _ _ O I). lia. }
    intros ts e k a rest alt _ X [<-|[]] Y; refine (kept_near _ _ _ _ _ _ _ H E3 X Y).
  - intros ts e k a rest alt _ X [].
Qed.

Lemma near_same {A} (p : parser A) m q q' a rest alt : near 0 anyp p -> det p -> tidy (chars (m ++ q)) ->
  r_out (p (m ++ q)) = Ok a rest alt -> len q < len rest ->
  exists m1 alt', rest = m1 ++ q /\ r_out (p (m ++ q')) = Ok a (m1 ++ q') alt'.
Proof.
  intros N Dp T O L. specialize (N _ _ _ _ O I). specialize (Dp m q q' T). rewrite O in Dp.
  assert (lowo (len q) alt) as W by (destruct alt; cbn [within lowo] in *; [lia|exact I]).
  specialize (Dp (conj L W)). apply agree_ok in Dp. destruct Dp as (m1 & alt' & -> & X). exists m1, alt'. auto.
Qed.

Lemma D_bare_ident : D bare_ident.
Proof.
  apply D_of; [auto with safe|]. change bare_ident with (p_try_map not_keyword bare_inner).
  apply det_try_map; [apply D_bare_inner|]. intros m q q' a rest alt e T O F L.
  destruct (near_same _ m q q' a rest alt near_bare_inner (proj2 D_bare_inner) T O L) as (m1 & alt' & _ & ->).
  exists e. exact F.
Qed.
#[export] Hint Resolve D_bare_ident quiet_bare_ident : early.

(** ** Parsers that keep accepting *)

(** What [p] accepted before the end of the shared part it accepts in the other
    input too, though perhaps not in the same place. *)
Definition firm {A} (p : parser A) : Prop :=
  forall m q q' a rest alt, tidy (chars (m ++ q)) -> r_out (p (m ++ q)) = Ok a rest alt -> len q < len rest ->
    exists a' rest' alt', r_out (p (m ++ q')) = Ok a' rest' alt'.

Lemma firm_near {A} (p : parser A) : near 0 anyp p -> det p -> firm p.
Proof.
  intros N H m q q' a rest alt T O L.
  destruct (near_same _ m q q' a rest alt N H T O L) as (m1 & alt' & _ & X). eauto.
Qed.

Lemma firm_map {A B} (f : A -> B) p : firm p -> firm (p_map f p).
Proof.
  intros H m q q' a rest alt T O L. apply map_ok in O. destruct O as (x & O & ->).
  destruct (H m q q' x rest alt T O L) as (a' & rest' & alt' & X).
  exists (f a'), rest', alt'. cbn [p_map r_out]. rewrite X. reflexivity.
Qed.

Lemma firm_spanned {A} (p : parser A) : firm p -> firm (p_spanned p).
Proof.
  intros H m q q' a rest alt T O L. apply span_ok in O. destruct O as (x & O & _).
  destruct (H m q q' x rest alt T O L) as (a' & rest' & alt' & X).
  unfold p_spanned. cbn [p_map_with_span r_out]. rewrite X. eauto.
Qed.

Lemma or_some {A} (p k : parser A) ts :
  (exists a rest alt, r_out (p ts) = Ok a rest alt) \/ (exists a rest alt, r_out (k ts) = Ok a rest alt) ->
  exists a rest alt, r_out (p_or p k ts) = Ok a rest alt.
Proof.
  intros H. destruct (p_or_cases p k ts) as
    [(a & rest & alt & He & Ho & X)
    |[N [(a & rest & alt & alt' & c & Ho & He & M & X)
    |[(a & rest & alt & alt' & c & Ho & M & X)
    |(ea & eb & Ha & Hb & X)]]]].
  - rewrite X. eauto.
  - rewrite X. cbn [r_out]. eauto.
  - rewrite X. cbn [r_out]. eauto.
  - destruct H as [(a & rest & alt & H)|(a & rest & alt & H)]; congruence.
Qed.

Lemma or_either {A} (p k : parser A) ts a rest alt : r_out (p_or p k ts) = Ok a rest alt ->
  exists alt', r_out (p ts) = Ok a rest alt' \/ r_out (k ts) = Ok a rest alt'.
Proof.
  intros H. destruct (p_or_cases p k ts) as
    [(a1 & rest1 & alt1 & He & Ho & X)
    |[N [(a1 & rest1 & alt1 & alt' & c & Ho & He & M & X)
    |[(a1 & rest1 & alt1 & alt' & c & Ho & M & X)
    |(ea & eb & Ha & Hb & X)]]]].
  - rewrite X in H. eauto.
  - rewrite X in H. cbn [r_out] in H. inversion H; subst. eauto.
  - rewrite X in H. cbn [r_out] in H. inversion H; subst. eauto.
  - destruct X as [[X L]|[[X L]|(e2 & c & M & L & X)]]; rewrite X in H; discriminate.
Qed.

Lemma firm_or {A} (p k : parser A) : firm p -> firm k -> firm (p_or p k).
Proof.
  intros P K m q q' a rest alt T O L. apply or_some. apply or_either in O. destruct O as (alt' & [O|O]).
  - left. exact (P m q q' _ _ _ T O L).
  - right. exact (K m q q' _ _ _ T O L).
Qed.

Lemma choice_from_some {A} (ps : list (parser A)) ts p a rest alt : In p ps -> r_out (p ts) = Ok a rest alt ->
  forall alt0, exists a' rest' alt', r_out (p_choice_from alt0 ps ts) = Ok a' rest' alt'.
Proof.
  induction ps as [|k ps IH]; [intros []|]. intros J O alt0. cbn [p_choice_from].
  destruct (r_out (k ts)) as [a1 r1 al1|e] eqn:K; [exists a1, r1, al1; rewrite K; reflexivity|].
  destruct (merge_alts alt0 (Some e)) as [alt1 c]. cbn [add_crash r_out].
  destruct J as [->|J]; [congruence|]. apply IH; assumption.
Qed.

Lemma firm_choice {A} (ps : list (parser A)) : Forall firm ps -> firm (p_choice ps).
Proof.
  intros F m q q' a rest alt T O L. unfold p_choice in O. apply choice_from_in in O. destruct O as (p & J & O).
  rewrite Forall_forall in F. destruct (F p J m q q' _ _ _ T O L) as (a' & rest' & alt' & X).
  eapply choice_from_some; eauto.
Qed.

Lemma firm_then {A B} (p : parser A) (k : parser B) : firm p -> fwd k ->
  (forall ts, exists a rest alt, r_out (k ts) = Ok a rest alt) -> firm (p_then p k).
Proof.
  intros P F K m q q' a rest alt T O L. apply bind_ok in O.
  destruct O as (x & y & r1 & alt1 & alt2 & c & O1 & O2 & _). apply (fwd_ok _ _ _ _ _ F), suffix_len in O2.
  destruct (P m q q' _ _ _ T O1 ltac:(lia)) as (x' & r' & alt' & X).
  destruct (K r') as (y' & r2 & alt3 & Y). unfold p_then, p_bind. rewrite X, Y.
  destruct (merge_alts alt' alt3). cbn [r_out]. eauto.
Qed.

Lemma firm_then_near {A B} (p : parser A) (k : parser B) : near 0 anyp p -> D p -> firm k -> fwd k -> firm (p_then p k).
Proof.
  intros N [F P] K G m q q' a rest alt T O L. apply bind_ok in O.
  destruct O as (x & y & r1 & alt1 & alt2 & c & O1 & O2 & _). assert (H := suffix_len _ _ (fwd_ok _ _ _ _ _ G O2)).
  assert (T1 := tidy_rest _ _ (fwd_ok _ _ _ _ _ F O1) T).
  destruct (near_same _ m q q' _ _ _ N P T O1 ltac:(lia)) as (m1 & alt' & -> & X).
  destruct (K m1 q q' _ _ _ T1 O2 L) as (y' & r2 & alt3 & Y). unfold p_then, p_bind. rewrite X, Y.
  destruct (merge_alts alt' alt3). cbn [r_out]. eauto.
Qed.

(** ** Numbers *)

Lemma D_opt_sign : D opt_sign.
Proof. unfold opt_sign. ds. Qed.
Lemma D_digit r : D (digit r).
Proof. apply D_filter. Qed.
Lemma D_digits r : D (digits r).
Proof. unfold digits. ds. Qed.
#[export] Hint Resolve D_opt_sign D_digit D_digits : early.
Lemma D_fraction : D fraction.
Proof. unfold fraction. ds. Qed.
Lemma D_exponent : D exponent.
Proof. unfold exponent. ds. Qed.
#[export] Hint Resolve D_fraction D_exponent : early.

Lemma D_decimal : D decimal_number.
Proof. unfold decimal_number. ds. Qed.

Lemma D_radix_digits c n r : D (radix_digits c n r).
Proof. unfold radix_digits. ds. Qed.
#[export] Hint Resolve D_decimal D_radix_digits : early.

Lemma rej_radix_digits c n r : rej (fun x => (x =? c)%N) (radix_digits c n r).
Proof. unfold radix_digits. apply rej_ignore_then, rej_just. Qed.

Lemma D_radix_choice :
  D (p_choice [ radix_digits 0x62%N 2 Bin; radix_digits 0x6F%N 8 Oct; radix_digits 0x78%N 16 Hex ]).
Proof.
  apply D_choice; [foralls; ds|].
  assert (forall x n r y n' r' ts e a rest alt, x <> y -> r_out (radix_digits x n r ts) = Err e ->
    r_out (radix_digits y n' r' ts) = Ok a rest alt -> len rest <= l_rem e) as H.
  { intros x n r y n' r' ts e a rest alt N X Y.
    refine (kept_rej _ _ _ _ _ _ _ _ _ (rej_radix_digits _ _ _) (rej_radix_digits _ _ _) _ _ X Y);
      [|apply D_radix_digits].
    intros c Q. apply N.eqb_eq in Q. subst. apply N.eqb_neq. auto. }
  split; [|split; [|split; [|exact I]]].
  - intros ts e k a rest alt _ X [<-|[<-|[]]] Y; refine (H _ _ _ _ _ _ _ _ _ _ _ _ X Y); discriminate.
  - intros ts e k a rest alt _ X [<-|[]] Y; refine (H _ _ _ _ _ _ _ _ _ _ _ _ X Y); discriminate.
  - intros ts e k a rest alt _ X [].
Qed.

Lemma D_radix : D radix_number.
Proof. unfold radix_number. apply D_map, D_then; [ds|apply D_radix_choice]. Qed.
#[export] Hint Resolve D_radix quiet_radix_number quiet_number : early.

Lemma D_number : D number.
Proof. unfold number. ds. Qed.
#[export] Hint Resolve D_number : early.

Lemma digits_ok n (ts : toks) : exists a rest alt, r_out (digits n ts) = Ok a rest alt.
Proof. apply repeat0_ok. Qed.

Lemma map_or_not_ok {A B} (f : option A -> B) (p : parser A) (ts : toks) :
  exists a rest alt, r_out (p_map f (p_or_not p) ts) = Ok a rest alt.
Proof.
  destruct (or_not_ok p ts) as (o & r & alt & X). cbn [p_map r_out]. rewrite X. eauto.
Qed.

Lemma fraction_ok (ts : toks) : exists a rest alt, r_out (fraction ts) = Ok a rest alt.
Proof. apply map_or_not_ok. Qed.

Lemma exponent_ok (ts : toks) : exists a rest alt, r_out (exponent ts) = Ok a rest alt.
Proof. apply map_or_not_ok. Qed.

Lemma then_total_err {A B} (p : parser A) (k : parser B) ts e :
  (forall ts, exists a rest alt, r_out (k ts) = Ok a rest alt) -> r_out (p_then p k ts) = Err e -> r_out (p ts) = Err e.
Proof.
  intros K H. apply bind_err in H. destruct H as [H|(x & r1 & alt1 & ex & c & _ & H & _)]; [exact H|].
  destruct (K r1) as (y & r & alt & Y). congruence.
Qed.

Lemma decimal_err ts e : r_out (decimal_number ts) = Err e -> r_out (p_then opt_sign (digit 10) ts) = Err e.
Proof.
  unfold decimal_number. intros H. apply map_err_inv, map_err_inv, (then_total_err _ _ _ _ exponent_ok) in H.
  apply map_err_inv, (then_total_err _ _ _ _ fraction_ok) in H.
  apply map_err_inv, (then_total_err _ _ _ _ (digits_ok 10)) in H.
  apply map_err_inv in H. exact H.
Qed.

Lemma firm_decimal : firm decimal_number.
Proof.
  unfold decimal_number. apply firm_map, firm_map, firm_then; [|apply D_exponent|apply exponent_ok].
  apply firm_map, firm_then; [|apply D_fraction|apply fraction_ok].
  apply firm_map, firm_then; [|apply D_digits|apply digits_ok].
  apply firm_map, firm_near; [|apply D_then; [apply D_opt_sign|apply D_digit]].
  apply near_then with (j := 1) (G := anyp).
  - apply near_up, near_opt_sign.
  - apply noalt_near, noalt_filter.
  - apply eats_filter.
  - intros; exact I.
Qed.

Lemma firm_number : firm number.
Proof. apply firm_or; [apply firm_near; [apply near_radix|apply D_radix]|apply firm_decimal]. Qed.

Lemma opt_sign_len ts o r alt : r_out (opt_sign ts) = Ok o r alt -> len ts <= len r + 1 /\ within 0 r alt.
Proof.
  intros H. split; [|apply (near_opt_sign anyp _ _ _ _ H I)].
  unfold opt_sign, p_or_not in H.
  destruct (r_out (p_or (p_just 0x2D%N) (p_just 0x2B%N) ts)) as [a r1 alt1|e] eqn:O.
  - cbn [r_out] in H. inversion H; subst. apply or_either in O. destruct O as (alt' & [O|O]); apply just_len in O; lia.
  - cbn [r_out] in H. inversion H; subst. lia.
Qed.

Lemma then_second_err {A B} (p : parser A) (k : parser B) ts e o r alt : r_out (p_then p k ts) = Err e ->
  r_out (p ts) = Ok o r alt -> within 0 r alt -> enear 0 anyp k ->
  len r <= l_rem e /\ exists e', r_out (k r) = Err e'.
Proof.
  intros H O W K. apply bind_err in H. destruct H as [H|(x & r1 & alt1 & ex & c & O' & H & M)]; [congruence|].
  rewrite O in O'. inversion O'; subst. assert (V := K _ _ H I). split; [|eauto].
  destruct alt1 as [e1|]; cbn [lmax_opt within] in *; [apply lmax_rem in M|inversion M; subst]; lia.
Qed.

Lemma then_first_err {A B C} (p : parser A) (z : parser B) (k : parser C) ts e o r alt :
  r_out (p_then (p_then_ignore p z) k ts) = Err e -> r_out (p ts) = Ok o r alt -> within 0 r alt -> enear 0 anyp z ->
  (forall a rest al, r_out (z r) = Ok a rest al -> False) -> len r <= l_rem e.
Proof.
  intros H O W K Z. apply bind_err in H. destruct H as [H|(x & r1 & alt1 & ex & c & H & _ & _)].
  - apply map_err_inv in H. exact (proj1 (then_second_err _ _ _ _ _ _ _ H O W K)).
  - exfalso. apply map_ok in H. destruct H as (y & H & _). apply bind_ok in H.
    destruct H as (y1 & y2 & r3 & alt3 & alt4 & c' & R1 & R2 & _). rewrite O in R1. inversion R1; subst.
    exact (Z _ _ _ R2).
Qed.

Lemma digit_err_zero (r : toks) e : r_out (digit 10 r) = Err e ->
  forall a rest al, r_out (p_just 0x30%N r) = Ok a rest al -> False.
Proof.
  intros H a rest al X. apply (rej_no _ _ _ _ _ _ (rej_just 0x30%N)) in X.
  destruct r as [|[d s] r]; [discriminate|]. cbn [hd] in X. apply N.eqb_eq in X. subst d. discriminate.
Qed.

Lemma or_err_low {A} (p k : parser A) ts e (r : toks) :
  (forall e1 e2, r_out (p ts) = Err e1 -> r_out (k ts) = Err e2 -> len r <= l_rem e1 /\ len r <= l_rem e2) ->
  r_out (p_or p k ts) = Err e -> len r <= l_rem e.
Proof.
  intros H O. destruct (p_or_cases p k ts) as
    [(a1 & rest1 & alt1 & He & Ho & X)
    |[N [(a1 & rest1 & alt1 & alt' & c & Ho & He & M & X)
    |[(a1 & rest1 & alt1 & alt' & c & Ho & M & X)
    |(ea & eb & Ha & Hb & X)]]]].
  - rewrite X in O. congruence.
  - rewrite X in O. discriminate.
  - rewrite X in O. discriminate.
  - destruct (H _ _ Ha Hb) as [La Lb].
    destruct X as [[X L]|[[X L]|(e2 & c & M & L & X)]]; rewrite X in O; inversion O; subst; auto.
    apply lmax_rem in M. lia.
Qed.

Lemma enear_number : enear 1 anyp number.
Proof.
  intros ts e H _. destruct (opt_sign_ok ts) as (o & r & alt & O).
  destruct (opt_sign_len _ _ _ _ O) as [W1 W2].
  assert (len r <= l_rem e) as L; [|lia].
  refine (or_err_low _ _ _ _ _ _ H). intros e1 e2 R De.
  apply decimal_err in De.
  destruct (then_second_err _ _ _ _ _ _ _ De O W2 (enear_filter _ _)) as [L2 (e' & Dg)].
  split; [|exact L2]. unfold radix_number in R. apply map_err_inv in R.
  exact (then_first_err _ _ _ _ _ _ _ _ R O W2 (enear_just _ _) (digit_err_zero _ _ Dg)).
Qed.

(** ** Identifiers, keywords, literals *)

Lemma bare_err_string ts e a rest alt : r_out (bare_ident ts) = Err e -> r_out (string_ ts) = Ok a rest alt ->
  len rest <= l_rem e.
Proof.
  intros X Y. assert (L := suffix_len _ _ (fwd_ok _ _ _ _ _ (proj1 D_string) Y)).
  apply (rej_no _ _ _ _ _ _ rej_string) in Y. destruct ts as [|[c s] ts]; [discriminate|]. cbn [hd] in Y.
  unfold f_str in Y. apply orb_prop in Y. destruct Y as [Y|Y]; apply N.eqb_eq in Y; subst c.
  - exfalso. destruct (bare_ident_r s ts) as (t & r & _ & alt' & Z). discriminate (eq_trans (eq_sym Z) X).
  - assert (hd f_bare ((0x22%N, s) :: ts) = false) as H by reflexivity.
    assert (W := rej_enear _ _ rej_bare_ident _ _ X H). lia.
Qed.

Lemma choice_first {A} (p : parser A) ps ts a rest alt : r_out (p ts) = Ok a rest alt ->
  r_out (p_choice (p :: ps) ts) = Ok a rest alt.
Proof. intros H. unfold p_choice. cbn [p_choice_from]. rewrite H. exact H. Qed.

Lemma map_first {A B} (f : A -> B) (p : parser A) ts a rest alt : r_out (p ts) = Ok a rest alt ->
  r_out (p_map f p ts) = Ok (f a) rest alt.
Proof. intros H. cbn [p_map r_out]. rewrite H. reflexivity. Qed.

Lemma D_ident : D ident.
Proof.
  apply D_of; [auto with safe|]. unfold ident. apply det_try_map.
  - apply D_choice; [foralls; ds|]. split; [|split; [|split; [|exact I]]].
    + intros ts e k a rest alt _ X J Y. refine (kept_near _ _ _ _ _ _ _ (enear_map _ _ _ _ enear_number) _ X Y).
      destruct J as [<-|[<-|[]]]; apply eats_map; auto with safe.
    + intros ts e k a rest alt _ X [<-|[]] Y. apply map_err_inv in X. apply map_ok in Y. destruct Y as (y & Y & _).
      exact (bare_err_string _ _ _ _ _ X Y).
    + intros ts e k a rest alt _ X [].
  - intros m q q' a rest alt e T O F L.
    assert (exists l, r_out (number (m ++ q)) = Ok l rest alt) as (l & N).
    { apply choice3_ok in O. destruct O as [O|[O|O]]; apply map_ok in O; destruct O as (x & O & ->);
        [eauto|discriminate F|discriminate F]. }
    destruct (firm_number m q q' _ _ _ T N L) as (l' & rest' & alt' & X).
    rewrite (choice_first (p_map inl number) _ (m ++ q') (inl l') rest' alt'); [eexists; reflexivity|].
    exact (map_first inl _ _ _ _ _ X).
Qed.
#[export] Hint Resolve D_ident : early.

Lemma rej_keyword1 x s (l : literal) : rej (Sp := unit) (fun c => (c =? x)%N) (p_map (fun _ : unit => l) (p_map_err (with_expected_token (x :: s)) (p_just_str (x :: s)))).
Proof. apply rej_map, rej_map_err; [auto with safe|apply rej_just_str]. Qed.

Lemma D_keyword1 s l : D (keyword1 s l).
Proof. unfold keyword1. ds. Qed.
#[export] Hint Resolve D_keyword1 : early.

Lemma D_keyword : D keyword.
Proof.
  unfold keyword. apply D_choice; [foralls; ds|].
  assert (forall x s (l : literal) y s' (l' : literal) (ts : toks) e a rest alt, x <> y ->
    r_out (p_map (fun _ : unit => l) (p_map_err (with_expected_token (x :: s)) (p_just_str (x :: s))) ts) = Err e ->
    r_out (p_map (fun _ : unit => l') (p_map_err (with_expected_token (y :: s')) (p_just_str (y :: s'))) ts) = Ok a rest alt ->
    len rest <= l_rem e) as H.
  { intros x s l y s' l' ts e a rest alt N X Y.
    refine (kept_rej _ _ _ _ _ _ _ _ _ (rej_keyword1 _ _ _) (rej_keyword1 _ _ _) _ _ X Y).
    - intros c Q. apply N.eqb_eq in Q. subst. apply N.eqb_neq. auto.
    - apply D_map, D_map_err, D_just_str. }
  split; [|split; [|split; [|exact I]]].
  - intros ts e k a rest alt _ X [<-|[<-|[]]] Y; refine (H _ _ _ _ _ _ _ _ _ _ _ _ X Y); discriminate.
  - intros ts e k a rest alt _ X [<-|[]] Y; refine (H _ _ _ _ _ _ _ _ _ _ _ _ X Y); discriminate.
  - intros ts e k a rest alt _ X [].
Qed.
#[export] Hint Resolve D_keyword : early.

Lemma kw_not_str c : f_kw c = true -> f_str c = false.
Proof. unfold f_kw, f_str. lia. Qed.
Lemma num_not_str c : f_num c = true -> f_str c = false.
Proof.
  intros H. destruct (f_str c) eqn:E; [|reflexivity]. unfold f_str in E. apply orb_prop in E.
  destruct E as [E|E]; apply N.eqb_eq in E; subst; discriminate.
Qed.
Lemma num_not_kw c : f_num c = true -> f_kw c = false.
Proof.
  intros H. destruct (f_kw c) eqn:E; [|reflexivity]. unfold f_kw in E. rewrite !orb_true_iff in E.
  destruct E as [[E|E]|E]; apply N.eqb_eq in E; subst; discriminate.
Qed.

Lemma D_literal : D literal_.
Proof.
  unfold literal_. apply D_choice; [foralls; ds|]. split; [|split; [|split; [|exact I]]].
  - intros ts e k a rest alt _ X [<-|[<-|[]]] Y.
    + exact (kept_rej _ _ _ _ _ _ _ _ _ (rej_map _ _ _ rej_string) rej_keyword kw_not_str (proj1 D_keyword) X Y).
    + exact (kept_rej _ _ _ _ _ _ _ _ _ (rej_map _ _ _ rej_string) rej_number num_not_str (proj1 D_number) X Y).
  - intros ts e k a rest alt _ X [<-|[]] Y.
    exact (kept_rej _ _ _ _ _ _ _ _ _ rej_keyword rej_number num_not_kw (proj1 D_number) X Y).
  - intros ts e k a rest alt _ X [].
Qed.
#[export] Hint Resolve D_literal : early.

Lemma firm_literal : firm literal_.
Proof.
  unfold literal_. apply firm_choice. foralls.
  - apply firm_map, firm_near; [apply near_string|apply D_string].
  - apply firm_near; [apply noalt_near, noalt_keyword|apply D_keyword].
  - apply firm_number.
Qed.

Lemma D_type_name : D type_name.
Proof. unfold type_name. ds. Qed.
#[export] Hint Resolve D_type_name : early.

Lemma D_type_name_value : D type_name_value.
Proof. unfold type_name_value. ds. Qed.
#[export] Hint Resolve D_type_name_value : early.

Lemma firm_type_name_value : firm type_name_value.
Proof.
  unfold type_name_value. apply firm_map, firm_then_near.
  - apply near_spanned, near_type_name.
  - ds.
  - apply firm_spanned, firm_literal.
  - apply D_spanned, D_literal.
Qed.

Lemma D_value : D value_.
Proof.
  unfold value_. apply D_or; [ds|ds|]. intros ts.
  destruct (r_out (type_name_value ts)) as [a r alt|e] eqn:O; [|right; left; eauto].
  right. right. apply (rej_no _ _ _ _ _ _ rej_type_name_value) in O.
  assert (hd f_lit ts = false) as H.
  { destruct ts as [|[c s] ts]; [reflexivity|]. apply paren_not_lit, O. }
  destruct (rej_map _ (fun l => Value None l) _ (rej_spanned _ _ rej_literal) ts H) as (e & X & _). exact (ex_intro _ _ (f_equal r_out X)).
Qed.
#[export] Hint Resolve D_value : early.

Lemma firm_value : firm value_.
Proof. apply firm_or; [apply firm_type_name_value|apply firm_map, firm_spanned, firm_literal]. Qed.

Lemma D_opt_value : D opt_value.
Proof. unfold opt_value. ds. Qed.
#[export] Hint Resolve D_opt_value : early.
