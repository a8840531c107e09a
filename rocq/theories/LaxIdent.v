(** Where the errors of identifiers, literals and type names lie. *)

From Coq Require Import NArith PeanoNat List Bool String Lia.
From Verif Require Import Chars Ast Errors Chumsky Spans Grammar Safe GrammarSafe Kdl KdlChars Good GrammarNear
  LexLit LexIdent LexSpace SpanProps ErrSpec TokenSet ErrAt ErrGrammar LaxSpec LaxCalc LaxGrammar LaxLit.
Import ListNotations.
Local Open Scope list_scope.

(** The text begins like a number. *)
Definition begins_number (q : text) : Prop :=
  exists sg d r, q = sg ++ d :: r /\ opt_sign_text sg /\ digit_char 10 d.

Section LaxIdent.
Variable t : text.
Variable V : text -> Prop.

#[local] Hint Extern 0 (env span) => exact (ErrAt.E t) : typeclass_instances.

Notation okv := (okv t V).
Notation at_ := (at_ t V).
Notation gl := (gl t V).
Notation room := (room V).

Lemma number_works pre q : begins_number q -> works (number (toks_at pre q)).
Proof.
  intros (sg & d & r & -> & S & D). rewrite toks_app.
  destruct (opt_sign_complete (toks_at pre sg) (toks_at (pre ++ sg) (d :: r))) as (o & S' & _).
  - rewrite chars_toks. exact S.
  - intros _. rewrite chars_toks. cbn [stop]. intros [-> | ->]; apply is_digit_spec in D; try lia; discriminate D.
  - unfold number. apply works_or_r. unfold decimal_number.
    apply works_map, works_map, works_then; [|intros; apply works_map, works_or_not].
    apply works_map, works_then; [|intros; apply works_map, works_or_not].
    apply works_map, works_then; [|intros; apply works_repeat].
    apply works_map. rewrite toks_cons in *.
    apply is_digit_spec in D; [|lia].
    match type of S' with succ (_ ?ts) o ((d, ?sp) :: ?r') =>
      assert (succ (p_then opt_sign (digit 10) ts) (o, d) r') as [_ [al X]] end.
    { eapply succ_then; [exact S'|]. apply succ_filter. exact D. }
    eexists _, _, _. exact X.
Qed.

(** A text that is not a number fails before its first digit. *)
Lemma number_err pre q e : t = pre ++ q -> V pre ->
  (forall c, sign_char c -> q <> [] -> V (pre ++ [c])) ->
  r_out (number (toks_at pre q)) = Err e -> gl e.
Proof.
  intros T V0 VS O.
  assert (~ begins_number q) as ND.
  { intros D. eapply works_failed; [apply (number_works pre q D)|exists e; exact O]. }
  set (W := fun p => V p \/ begins_number q).
  assert (LaxCalc.at_ t W number pre q anyq) as H.
  - assert (begins_number q -> forall A L (p : parser span A) pre' q', t = pre' ++ q' -> LaxCalc.okv t W L p ->
      LaxCalc.at_ t W p pre' q' anyq) as Free.
    { intros D A L p pre' q' T' [_ P]. eapply at_drop, P; [exact T'|]. intros m _ _. right. exact D. }
    assert (LaxCalc.at_ t W opt_sign pre q (fun m _ _ => opt_sign_text m)) as Sg.
    { unfold opt_sign. apply at_or_not; [constructor|].
      apply at_or; (eapply at_weaken; [|apply at_just; [exact T|left; exact V0|]]).
      1,3: intros m q' a _ [-> _]; constructor; (right; reflexivity) || (left; reflexivity).
      all: intros _ Nq; left; apply VS; [(right; reflexivity) || (left; reflexivity)|exact Nq]. }
    assert (forall m q', q = m ++ q' -> opt_sign_text m -> W (pre ++ m)) as Here.
    { intros m q' X S. destruct S as [|c C]; left; [rewrite app_nil_r; exact V0|]. apply VS; [exact C|]. rewrite X. discriminate. }
    assert (LaxCalc.at_ t W (p_then_ignore opt_sign (p_just 0x30%N)) pre q (fun _ _ _ => begins_number q)) as H0.
    { eapply at_map; [intros m q' a _ X; exact X|]. eapply at_weaken; [|apply (at_bind t W (fun m _ _ => opt_sign_text m)
        (fun m1 _ m2 q2 _ => begins_number q)); [exact T|exact Sg|]].
      - intros m q' a _ (m1 & m2 & _ & _ & X). exact X.
      - intros m q' a X T' S. eapply at_weaken; [|apply at_just; [exact T'|eapply Here; eassumption|intros N; exfalso; apply N; reflexivity]].
        intros m' q2 c Y [-> _]. exists m, 0x30%N, q2. rewrite X, Y. split; [reflexivity|]. split; [exact S|].
        exists 0%N. split; [lia|]. left. reflexivity. }
    assert (LaxCalc.at_ t W (p_then opt_sign (digit 10)) pre q (fun _ _ _ => begins_number q)) as H1.
    { eapply at_weaken; [|apply (at_bind t W (fun m _ _ => opt_sign_text m)
        (fun m1 _ m2 q2 _ => begins_number q)); [exact T|exact Sg|]].
      - intros m q' a _ (m1 & m2 & _ & _ & X). exact X.
      - intros m q' a X T' S. eapply at_weaken; [|apply at_filter; [exact T'|eapply Here; eassumption]].
        intros m' q2 c Y [-> C]. exists m, c, q2. rewrite X, Y. split; [reflexivity|]. split; [exact S|].
        apply is_digit_spec in C; [exact C|lia]. }
    assert (forall A B L (p : parser span A) (p' : parser span B), LaxCalc.at_ t W p pre q (fun _ _ _ => begins_number q) ->
      LaxCalc.okv t W L p' -> LaxCalc.at_ t W (p_then p p') pre q (fun _ _ _ => begins_number q)) as Go.
    { intros A B L p p' P P'. eapply at_weaken; [|apply (at_bind t W (fun _ _ _ => begins_number q)
        (fun _ _ _ _ _ => True)); [exact T|exact P|]].
      - intros m q' a _ (m1 & m2 & _ & X & _). exact X.
      - intros m q' a X T' D. eapply Free; eassumption. }
    apply at_or.
    + unfold radix_number. eapply at_map with (Q := fun _ _ _ => begins_number q); [intros m q' a _ _; exact I|]. eapply Go; [exact H0|].
      apply (okv_choice t W (fun _ => True)); [exists []; exact I|]. intros p Hp.
      assert (forall x n r, (1 <= n <= 16)%N -> LaxCalc.okv t W (fun _ => True) (radix_digits x n r)) as G.
      { intros x n r L. unfold radix_digits. eapply okv_weaken; [|apply okv_ignore_then; [apply okv_just|
          apply okv_map, okv_map, okv_then; [apply (okv_digit t W n); exact L|apply okv_digits; lia]]]. intros; exact I. }
      destruct Hp as [<-|[<-|[<-|[]]]]; apply G; lia.
    + unfold decimal_number. eapply at_map with (Q := fun _ _ _ => begins_number q); [intros m q' a _ _; exact I|].
      eapply at_map with (Q := fun _ _ _ => begins_number q); [intros m q' a _ X; exact X|]. eapply Go; [|apply okv_exponent].
      eapply at_map with (Q := fun _ _ _ => begins_number q); [intros m q' a _ X; exact X|]. eapply Go; [|apply okv_fraction].
      eapply at_map with (Q := fun _ _ _ => begins_number q); [intros m q' a _ X; exact X|]. eapply Go; [|apply okv_digits; lia].
      eapply at_map with (Q := fun _ _ _ => begins_number q); [intros m q' a _ X; exact X|]. exact H1.
  - destruct H as [_ H]. rewrite O in H. cbn in H.
    destruct H as (P & q1 & G1 & G2 & G3 & G4 & G5). exists P, q1. split; [exact G1|]. split; [exact G2|].
    assert (forall p, W p -> V p) as WV by (intros p [X|X]; [exact X|contradiction]).
    split; [|split].
    + eapply Forall_impl; [|exact G3]. intros sp (p & S & X). exists p. split; [exact S|apply WV, X].
    + intros Z. destruct (G4 Z) as [X Y]. split; [exact X|apply WV, Y].
    + destruct (l_err e) as [lab sp found exp| | |]; try exact I. destruct G5 as [G5 G6]. split; [|exact G6].
      intros k x H1 H2 H3. eapply WV, G5; eassumption.
Qed.

(** ** Bare identifiers *)

Definition bare_run : lang :=
  alt (cat (one_of sign_char) (cat (one_of ident_start) (star (one_of ident_char))))
    (alt (one_of sign_char)
         (cat (one_of (fun c => ident_start c /\ ~ sign_char c)) (star (one_of ident_char)))).

Lemma not_keyword_long s : In s keywords -> ~ In (s ++ [0x61%N]) keywords.
Proof. intros [<-|[<-|[<-|[]]]] H; cbn in H; repeat destruct H as [H|H]; discriminate H || contradiction. Qed.

Lemma run_bare s : bare_run s -> pfx bare_text s.
Proof.
  intros [u [a b (c & C & ->) [d x (y & Y & ->) X]]|u [v (c & C & ->)|v [a b (c & (C1 & C2) & ->) B]]].
  - apply pfx_self. apply star_all in X. cbn [app]. constructor; assumption.
  - apply pfx_self. constructor. exact C.
  - apply star_all in B. cbn [app]. destruct (in_dec (list_eq_dec N.eq_dec) (c :: b) keywords) as [K|K].
    + exists [0x61%N]. cbn [app]. constructor; [exact C1|exact C2| |].
      * apply Forall_app. split; [exact B|]. constructor; [|constructor]. apply id_char_spec. reflexivity.
      * apply (not_keyword_long (c :: b)). exact K.
    + apply pfx_self. constructor; assumption.
Qed.

Lemma okv_once {A} L (p : parser span A) : okv L p -> okv L (p_exactly 1 p).
Proof.
  intros [I P]. split; [exact I|]. intros pre q T R. unfold p_exactly.
  eapply at_weaken; [|apply (at_repeat t V (fun outs m q' => (outs = [] /\ m = []) \/ (List.length outs = 1 /\ K L m q')));
    [exact T|left; auto|]].
  - intros m q' outs _ [[[-> ->]|[_ H]] X]; [|exact H]. cbn in X. specialize (X ltac:(lia) ltac:(discriminate)). lia.
  - intros outs ms q' X T' [[-> ->]|[L1 _]] Lt; [|lia]. rewrite app_nil_r in *. cbn [app] in X. subst q'.
    eapply at_weaken; [|apply P; [exact T|exact R]]. intros m q' a _ HK. right. cbn. auto.
Qed.

Lemma letter_ident x : fits (TKind (str "letter")) x -> ident_char x /\ ~ digit_char 10 x /\ ~ sign_char x.
Proof.
  intros F. remember (TKind (str "letter")) as k eqn:Ek. destruct F; [discriminate Ek|auto|].
  apply (f_equal (fun k => match k with TKind s => List.length s | _ => 0 end)) in Ek. discriminate Ek.
Qed.

Lemma okv_id_char : okv (one_of ident_char) id_char.
Proof.
  unfold id_char. apply okv_kind; [intros ts; apply here_filter| |].
  - intros x F. apply pfx_self. exists x. split; [apply letter_ident, F|reflexivity].
  - apply okv_filter; [exists 0x61%N|]; try (intros c C); apply id_char_spec; [reflexivity|exact C].
Qed.

Lemma okv_start : okv (one_of ident_start) id_sans_dig.
Proof.
  unfold id_sans_dig. apply okv_kind; [intros ts; apply here_filter| |].
  - intros x F. apply letter_ident in F. destruct F as (F1 & F2 & _). apply pfx_self. exists x.
    split; [split; [right; exact F1|exact F2]|reflexivity].
  - apply okv_filter; [exists 0x61%N|]; try (intros c C); apply id_sans_dig_spec; [reflexivity|exact C].
Qed.

Lemma okv_start2 : okv (one_of (fun c => ident_start c /\ ~ sign_char c)) id_sans_sign_dig.
Proof.
  unfold id_sans_sign_dig. apply okv_kind; [intros ts; apply here_filter| |].
  - intros x F. apply letter_ident in F. destruct F as (F1 & F2 & F3). apply pfx_self. exists x.
    split; [split; [split; [right; exact F1|exact F2]|exact F3]|reflexivity].
  - apply okv_filter; [exists 0x61%N|]; try (intros c C); apply id_sans_sign_dig_spec; [reflexivity|exact C].
Qed.

Lemma okv_plus_minus : okv (one_of sign_char) plus_minus.
Proof.
  unfold plus_minus. apply okv_or; (eapply okv_weaken; [|apply okv_just]);
    intros s <-; eexists; (split; [|reflexivity]); [left|right]; reflexivity.
Qed.

Lemma inh_run : inhabited bare_run.
Proof. exists [0x2B%N]. apply Alt_r, Alt_l. exists 0x2B%N. split; [left|]; reflexivity. Qed.

Lemma inh_bare : inhabited bare_text.
Proof. exists [0x2B%N]. constructor. left. reflexivity. Qed.

Lemma no_fit k x : k <> str "letter" -> k <> str "newline" -> fits (TKind k) x -> False.
Proof.
  intros N1 N2 F. remember (TKind k) as k' eqn:Ek.
  destruct F; [discriminate Ek|apply N1|apply N2]; injection Ek as Ek; symmetry; exact Ek.
Qed.

Lemma refused lab sp tok k pre : sp_start sp = byte_len pre -> k <> str "letter" -> k <> str "newline" ->
  tok <> TEoi -> refusal pre (EUnexpected (Some lab) sp tok [TKind k]).
Proof.
  intros S N1 N2 N3. split; [repeat constructor; exact S|]. split; [destruct tok; congruence || reflexivity|].
  split; [discriminate|]. intros k' x [<-|[]] F. eapply no_fit; eassumption.
Qed.

Lemma okv_run : okv bare_run bare_ident.
Proof.
  unfold bare_ident. apply okv_try_map.
  - apply okv_choice; [apply inh_run|]. intros p [<-|[<-|[<-|[]]]].
    + eapply okv_weaken; [|apply okv_map, okv_then; [apply okv_plus_minus|apply okv_map, okv_then; [apply okv_start|apply okv_repeat, okv_id_char]]].
      apply Alt_l.
    + eapply okv_weaken; [|apply okv_once, okv_plus_minus]. intros s H. apply Alt_r, Alt_l, H.
    + eapply okv_weaken; [|apply okv_map, okv_then; [apply okv_start2|apply okv_repeat, okv_id_char]].
      intros s H. apply Alt_r, Alt_r, H.
  - intros s pre sp S. unfold not_keyword, keyword_error.
    destruct (text_eqb s (str "true")); [apply refused; [exact S|discriminate..]|].
    destruct (text_eqb s (str "false")); [apply refused; [exact S|discriminate..]|].
    destruct (text_eqb s (str "null")); [apply refused; [exact S|discriminate..]|]. exact I.
Qed.

Lemma okv_bare : okv bare_text bare_ident.
Proof.
  split; [apply inh_bare|]. intros pre q T R.
  eapply at_weaken with (Q := fun m q' a => True /\ bare_text m); [intros m q' a _ [_ H]; apply K_full, H|].
  apply at_sound with (R := fun m (_ : text) => bare_text m); [apply quiet_bare_ident|apply S_bare_ident| |].
  - intros ts a rest G. apply bare_ident_sound in G. destruct G as (s & -> & <- & B & _). exists s. auto.
  - eapply at_weaken; [|apply (proj2 okv_run); [exact T|]]; [auto|].
    intros m [s P] N. apply R; [|exact N]. apply run_bare in P. destruct P as [u P]. exists (s ++ u).
    rewrite app_assoc. exact P.
Qed.

(** ** Identifiers *)

Lemma raw_other pre q : t = pre ++ q -> V pre -> (q <> [] -> V (pre ++ [0x72%N])) -> hd_error q <> Some 0x72%N ->
  at_ raw_string pre q (fun _ _ _ => False).
Proof.
  intros T V0 V1 N. unfold raw_string, LaxCalc.at_. eapply at_map; [intros m q' a _ H; exact H|].
  eapply at_weaken; [|apply (at_bind t V (fun _ _ _ => False) (fun _ _ _ _ _ => True)); [exact T| |]].
  - intros m q' a _ (m1 & m2 & _ & [] & _).
  - eapply at_map; [intros m q' a _ H; exact H|].
    eapply at_weaken; [|apply (at_bind t V (fun _ _ _ => False) (fun _ _ _ _ _ => True)); [exact T| |]].
    + intros m q' a _ (m1 & m2 & _ & [] & _).
    + eapply at_map; [intros m q' a _ H; exact H|].
      eapply at_weaken; [|apply (at_bind t V (fun _ _ _ => False) (fun _ _ _ _ _ => True)); [exact T| |]].
      * intros m q' a _ (m1 & m2 & _ & [] & _).
      * eapply at_weaken; [|apply at_just; [exact T|exact V0|intros _; exact V1]].
        intros m q' a X [-> _]. apply N. rewrite X. reflexivity.
      * intros m q' a _ _ [].
    + intros m q' a _ _ [].
  - intros m q' a _ _ [].
Qed.

Lemma inh_name : inhabited lax_name.
Proof. exists [0x2B%N]. apply Alt_l. constructor. left. reflexivity. Qed.

Lemma bare_r : bare_text [0x72%N].
Proof.
  destruct (proj1 (id_sans_sign_dig_spec 0x72%N) eq_refl) as [A B].
  constructor; [exact A|exact B|constructor|]. intros [X|[X|[X|[]]]]; discriminate.
Qed.

Lemma at_refused {A B C} (Q : text -> text -> C -> Prop) (f : A + B -> span -> C + perror span) (p : parser span A) ps pre q m q' a al :
  t = pre ++ q -> V pre -> quiet p -> r_out (p (toks_at pre q)) = Ok a (toks_at (pre ++ m) q') al -> q = m ++ q' ->
  (forall sp, sp_start sp = byte_len pre -> exists e, f (inl a) sp = inr e /\ refusal pre e) ->
  at_ (p_try_map f (p_choice (p_map inl p :: ps))) pre q Q.
Proof.
  intros T V0 Qt O X F.
  assert (p_choice (p_map inl p :: ps) (toks_at pre q) = p_map inl p (toks_at pre q)) as Z.
  { unfold p_choice. cbn [p_choice_from]. unfold p_map at 1. cbn [r_out]. rewrite O. reflexivity. }
  unfold LaxCalc.at_, p_try_map. rewrite Z. unfold p_map. cbn [r_out r_errs]. rewrite O, Qt.
  split; [constructor|]. cbn [r_out]. rewrite (since_eq t pre q _ T), toks_len.
  match goal with |- context [f (inl a) ?sp] => destruct (F sp eq_refl) as (e & -> & F1 & F2 & F3) end.
  subst q. apply (displaced t V pre m); assumption.
Qed.

Lemma at_choice3 {A} (Q : text -> text -> A -> Prop) p1 p2 p3 pre q : t = pre ++ q -> V pre ->
  at_ p1 pre q Q -> at_ p2 pre q Q -> (forall e, r_out (p2 (toks_at pre q)) = Err e -> at_ p3 pre q Q) ->
  at_ (p_choice [p1; p2; p3]) pre q Q.
Proof.
  intros T V0 P1 P2 P3. apply at_choice_from; [exact T|exact V0|exact I|]. intros l p l' X F.
  destruct l as [|x1 l]; [injection X as <- _; exact P1|].
  destruct l as [|x2 l]; [injection X as _ <- _; exact P2|].
  destruct l as [|x3 l]; [|injection X as _ _ _ X; destruct l; discriminate X].
  injection X as <- <- <- _. destruct (F p2) as [e Fe]; [right; left; reflexivity|]. exact (P3 e Fe).
Qed.

Lemma at_failed {A} (Q : text -> text -> A -> Prop) (p : parser span A) pre q e : quiet p ->
  r_out (p (toks_at pre q)) = Err e -> gl e -> at_ p pre q Q.
Proof. intros Qt O G. split; [rewrite Qt; constructor|]. rewrite O. exact G. Qed.

Lemma okv_ident : okv lax_name ident.
Proof.
  split; [apply inh_name|]. intros pre q T R.
  assert (V pre) as V0 by (eapply room_here; [apply inh_name|exact R]).
  assert (forall x, lax_name [x] -> q <> [] -> V (pre ++ [x])) as V1.
  { intros x X N. apply R; [apply pfx_self, X|]. destruct q as [|c q]; [congruence|]. exact (near_instead [] c q x). }
  unfold ident. destruct (r_out (number (toks_at pre q))) as [l rest al|e] eqn:O.
  - destruct (proj2 (okv_number t (fun _ => True)) pre q T (fun _ _ _ => I)) as [_ H]. rewrite O in H.
    destruct H as (m & q' & X & -> & _ & _).
    eapply at_refused; [exact T|exact V0|apply quiet_number|exact O|exact X|].
    intros sp S. eexists. split; [reflexivity|]. apply refused; [exact S|discriminate..].
  - eapply at_try_map with (Q := fun m q' a => match a with inl _ => False | inr _ => K lax_name m q' end);
      [exact T|exact V0| |].
    { intros m q' [a|a] sp X HK S; [contradiction|exact HK]. }
    apply at_choice3; [exact T|exact V0|..].
    + eapply at_map with (Q := fun _ _ _ => False); [intros m q' a _ []|].
      eapply at_failed; [apply quiet_number|exact O|]. eapply number_err; [exact T|exact V0| |exact O].
      intros c C Nq. apply V1; [apply Alt_l; constructor; exact C|exact Nq].
    + eapply at_map; [|apply (proj2 okv_bare); [exact T|eapply room_less; [apply Alt_l|exact R]]].
      intros m q' a _. apply K_impl. apply Alt_l.
    + intros e2 F2. apply at_map with (Q := fun m q' _ => K lax_name m q'); [intros m q' a _ H; exact H|].
      unfold string_. apply at_or.
      * eapply at_weaken; [|apply raw_other; [exact T|exact V0|intros Nq; apply V1; [apply Alt_l, bare_r|exact Nq]|]].
        -- intros m q' a _ [].
        -- intros H. destruct q as [|c q]; [discriminate H|]. injection H as ->. rewrite toks_cons in F2.
           match type of F2 with r_out (_ ((_, ?sp) :: ?ts)) = _ => destruct (bare_ident_r sp ts) as (u & r & S) end.
           eapply succ_failed; [exact S|]. eapply (failed_map_inv inr). exists e2. exact F2.
      * eapply at_weaken; [|apply (proj2 (okv_escaped t V)); [exact T|eapply room_less; [apply Alt_r|exact R]]].
        intros m q' a _. apply K_impl. apply Alt_r.
Qed.

(** ** Literals, type names *)

Lemma okv_keyword : okv (fun s => In s keywords) keyword.
Proof.
  unfold keyword. apply okv_choice; [exists (str "true"); left; reflexivity|].
  intros p [<-|[<-|[<-|[]]]]; unfold keyword1; apply okv_map, okv_tame; try apply tame_token;
    (eapply okv_weaken; [|apply okv_just_str]); intros s <-; cbn; tauto.
Qed.

Lemma okv_literal : okv lax_literal literal_.
Proof.
  unfold literal_. apply okv_choice; [exists (str "true"); apply Alt_r, Alt_l; left; reflexivity|].
  intros p [<-|[<-|[<-|[]]]].
  - apply okv_map. eapply okv_weaken; [|apply okv_string]. apply Alt_l.
  - eapply okv_weaken; [|apply okv_keyword]. intros s H. apply Alt_r, Alt_l, H.
  - eapply okv_weaken; [|apply okv_number]. intros s H. apply Alt_r, Alt_r, H.
Qed.

Lemma okv_type : okv lax_type type_name.
Proof.
  unfold type_name, p_delimited. apply okv_map.
  eapply okv_weaken; [|apply okv_then_ignore; [apply okv_ignore_then; [apply okv_just|apply okv_ident]|apply okv_just]].
  intros s [a b [a1 a2 A1 A2] B]. rewrite <- app_assoc. constructor; [exact A1|]. constructor; assumption.
Qed.

Lemma okv_typed : okv (cat lax_type lax_literal) type_name_value.
Proof. unfold type_name_value. apply okv_map, okv_then; apply okv_spanned; [apply okv_type|apply okv_literal]. Qed.

Lemma okv_value : okv lax_value value_.
Proof. unfold value_. apply okv_alt; [apply okv_typed|apply okv_map, okv_spanned, okv_literal]. Qed.

Lemma okv_opt_value : okv (opt (cat (word [0x3D%N]) lax_value)) opt_value.
Proof. unfold opt_value. apply okv_or_not, okv_ignore_then; [apply okv_just|apply okv_value]. Qed.

(** ** Arguments and properties *)

Lemma inh_item : inhabited lax_item.
Proof.
  exists ([0x2B%N] ++ []). apply Alt_l. constructor; [|constructor]. apply Alt_r. constructor. left. reflexivity.
Qed.

Lemma at_named {A} L (p : parser span A) pre q : t = pre ++ q -> okv L p ->
  room (cat L (opt (cat (word [0x3D%N]) lax_value))) pre q ->
  at_ (p_then (p_spanned p) opt_value) pre q
    (fun m q' a => K (cat L (opt (cat (word [0x3D%N]) lax_value))) m q' /\ sp_start (s_span (fst a)) = byte_len pre).
Proof.
  intros T P R. pose proof P as [I P1].
  eapply at_weaken; [|apply (at_bind t V (fun m q' a => K L m q' /\ sp_start (s_span a) = byte_len pre)
    (fun m1 _ m2 q2 _ => K (cat L (opt (cat (word [0x3D%N]) lax_value))) (m1 ++ m2) q2)); [exact T| |]].
  - intros m q' a _ (m1 & m2 & -> & [_ X] & Y). split; [exact Y|exact X].
  - unfold p_spanned. eapply at_map_with_span; [|exact T|apply P1; [exact T|]].
    + intros m q' a sp _ S HK. split; [exact HK|exact S].
    + intros m Hm Hn. apply R; [|exact Hn]. apply pfx_cat_l; [exists []; constructor|exact Hm].
  - intros m q' a X T' [HK _].
    eapply okv_step with (La := L); [apply okv_opt_value| |exact T'|exact HK|rewrite <- X; exact R].
    intros a1 b1. apply Cat.
Qed.

Lemma okv_inner : okv lax_item prop_or_arg_inner.
Proof.
  unfold prop_or_arg_inner. apply okv_choice; [apply inh_item|].
  intros p [<-|[<-|[<-|[]]]].
  - apply (okv_weaken t V (cat lax_literal (opt (cat (word [0x3D%N]) lax_value)))).
    { intros s [a b A B]. apply Alt_l. constructor; [apply Alt_l, A|exact B]. }
    split.
    { exists (str "true" ++ []). constructor; [|constructor]. apply Alt_r, Alt_l. left. reflexivity. }
    intros pre q T R. eapply at_try_map; [exact T| | |eapply at_named; [exact T|apply okv_literal|exact R]].
    + eapply room_here; [|exact R]. exists (str "true" ++ []). constructor; [|constructor]. apply Alt_r, Alt_l. left. reflexivity.
    + intros m q' [name v] sp X [HK S] _. cbn [fst] in S. unfold literal_item.
      destruct (s_value name), v; try exact HK;
        (split; [repeat constructor; exact S|split; [reflexivity|try exact I]]); cbn;
        (split; [discriminate|]); intros k x Hk F; vm_compute in Hk;
        repeat destruct Hk as [<-|Hk]; try contradiction; (eapply no_fit; [| |exact F]); discriminate.
  - apply (okv_weaken t V (cat bare_text (opt (cat (word [0x3D%N]) lax_value)))).
    { intros s [a b A B]. apply Alt_l. constructor; [apply Alt_r, A|exact B]. }
    split.
    { exists ([0x2B%N] ++ []). constructor; [|constructor]. constructor. left. reflexivity. }
    intros pre q T R. eapply at_map; [intros m q' a _ H; exact H|].
    eapply at_validate; [exact T| | |eapply at_named; [exact T|apply okv_bare|exact R]].
    + eapply room_here; [|exact R]. exists ([0x2B%N] ++ []). constructor; [|constructor]. constructor. left. reflexivity.
    + intros m q' [name v] sp X [HK _] S. split; [exact HK|]. cbn [ident_item_check snd]. destruct v; [exact I|].
      split; [repeat constructor; exact S|split; [reflexivity|exact I]].
  - apply okv_map. eapply okv_weaken; [|apply okv_typed]. apply Alt_r.
Qed.

End LaxIdent.
