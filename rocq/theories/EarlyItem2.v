(** Arguments and properties: see EarlyGrammar.v. *)

From Coq Require Import NArith ZArith PeanoNat List Bool String Lia ZifyBool.
From Verif Require Import Chars Ast Errors Chumsky Spans Grammar Safe GrammarSafe Near GrammarNear Kdl KdlChars KdlText
  Good LexSpace LexLit LexIdent LayoutMeans ItemProps EarlySpec EarlyCalc EarlyGrammar EarlyItems.
Import ListNotations.
Local Open Scope list_scope.

(** ** Literals that are not strings *)

Section Plain.
Context {Sp : Type} {E : env Sp}.

Lemma ok_good {A} (p : Chumsky.parser Sp A) (ts : Chumsky.toks Sp) a rest alt : quiet p -> Safe p ->
  r_out (p ts) = Ok a rest alt -> good (p ts) a rest.
Proof.
  intros Q S H. split; [split; [apply Q|eauto]|]. exact (proj1 (S (List.length ts) ts (le_n _))).
Qed.

Lemma literal_plain_sound (ts : Chumsky.toks Sp) l rest alt : r_out (literal_ ts) = Ok l rest alt ->
  (forall t, l <> LString t) ->
  exists s, ts = s ++ rest /\ (In (chars s, l) keyword_literals \/ number_text (chars s) l).
Proof.
  intros H N. rewrite literal_eq in H. apply choice3_ok in H. destruct H as [H|[H|H]].
  - apply map_ok in H. destruct H as (t & _ & ->). exfalso. exact (N _ eq_refl).
  - apply (ok_good _ _ _ _ _ quiet_keyword S_keyword) in H. apply keyword_sound in H.
    destruct H as (s & -> & H). eauto.
  - apply (ok_good _ _ _ _ _ quiet_number S_number) in H. apply number_sound in H.
    destruct H as (s & -> & H). eauto.
Qed.

Lemma string_eq : @string_ Sp E = p_or raw_string escaped_string.
Proof. reflexivity. Qed.

Lemma keyword_eq : @keyword Sp E = p_choice [ keyword1 "null" LNull; keyword1 "true" (LBool true); keyword1 "false" (LBool false) ].
Proof. reflexivity. Qed.
End Plain.

Local Existing Instance unit_env.
Local Opaque literal_ value_ type_name_value string_ number keyword bare_ident.

Lemma plain_literal_text s l : In (s, l) keyword_literals \/ number_text s l -> literal_text s l.
Proof.
  intros [H|H]; [|constructor 5; exact H].
  destruct H as [X|[X|[X|[]]]]; inversion X; constructor.
Qed.

Lemma opt_value_some (ts : toks) v rest alt : r_out (opt_value ts) = Ok (Some v) rest alt ->
  exists x r alt', ts = x :: r /\ fst x = 0x3D%N /\ r_out (value_ r) = Ok v rest alt'.
Proof.
  unfold opt_value, p_or_not. intros H.
  destruct (r_out (p_ignore_then (p_just 0x3D%N) value_ ts)) as [a r al|e] eqn:O; [|discriminate].
  cbn [r_out] in H. inversion H; subst. destruct ts as [|x ts].
  - cbn in O. discriminate.
  - destruct (N.eq_dec (fst x) 0x3D%N) as [X|X].
    + rewrite bind_just in O by exact X. eauto 6.
    + destruct (ignore_then_err 0x3D%N value_ x ts X) as (e & Y & _). congruence.
Qed.

Lemma opt_value_yes (x : tok unit) (ts : toks) v rest alt : fst x = 0x3D%N -> r_out (value_ ts) = Ok v rest alt ->
  exists rest' alt', r_out (opt_value (x :: ts)) = Ok (Some v) rest' alt'.
Proof.
  intros X H. unfold opt_value, p_or_not. rewrite bind_just by exact X. rewrite H. cbn [r_out]. eauto.
Qed.

Lemma item_inr a e : literal_item (Sp := unit) a tt = inr e ->
  exists n v, a = (n, Some v) /\ forall t, s_value n <> LString t.
Proof.
  destruct a as [n v]. unfold literal_item. intros H. exists n.
  destruct (s_value n) eqn:N, v as [v|]; try discriminate H; exists v; (split; [reflexivity|]); congruence.
Qed.

Lemma item_inr_of (n : spanned literal unit) v : (forall t, s_value n <> LString t) ->
  exists e, literal_item (Sp := unit) (n, Some v) tt = inr e.
Proof.
  intros N. unfold literal_item. destruct (s_value n) eqn:X; try (eexists; reflexivity).
  exfalso. exact (N _ eq_refl).
Qed.

Lemma eq_num_stop (x : tok unit) (ts : toks) : fst x = 0x3D%N -> num_stop (chars (x :: ts)).
Proof.
  intros X. rewrite chars_c, X. unfold num_stop, stop. intros H. vm_compute in H. intuition discriminate.
Qed.

Lemma then_spanned_ok {A B} (p : parser A) (k : parser B) ts a r al b r' al' :
  r_out (p ts) = Ok a r al -> r_out (k r) = Ok b r' al' ->
  exists n rest alt, r_out (p_then (p_spanned p) k ts) = Ok (n, b) rest alt /\ s_value n = a.
Proof.
  intros P K. unfold p_then, p_bind, p_spanned. cbn [p_map_with_span r_out]. rewrite P. rewrite K.
  destruct (merge_alts al al'). cbn [r_out]. eexists _, _, _. split; reflexivity.
Qed.

Lemma item_name_fails m q q' a rest alt e : tidy (chars (m ++ q)) ->
  r_out (p_then (p_spanned literal_) opt_value (m ++ q)) = Ok a rest alt -> literal_item a tt = inr e ->
  len q < len rest ->
  match r_out (p_then (p_spanned literal_) opt_value (m ++ q')) with
  | Ok a' _ _ => exists e', literal_item a' tt = inr e'
  | Err _ => True
  end.
Proof.
  intros T O F L. apply item_inr in F. destruct F as (n & v & -> & N).
  apply bind_ok in O. destruct O as (n0 & v0 & r1 & alt1 & alt2 & c & O1 & O2 & _ & X). inversion X; subst n0 v0. clear X.
  assert (L2 := suffix_len _ _ (fwd_ok _ _ _ _ _ (proj1 D_opt_value) O2)).
  apply opt_value_some in O2. destruct O2 as (x & r2 & alt3 & -> & X & V).
  assert (T1 := tidy_rest _ _ (fwd_ok _ _ _ _ _ (fwd_spanned _ (proj1 D_literal)) O1) T).
  apply span_ok in O1. destruct O1 as (l & O1 & E).
  assert (s_value n = l) as Sn by (rewrite E; reflexivity). rewrite Sn in N. clear E.
  destruct (literal_plain_sound _ _ _ _ O1 N) as (s & E & P). apply plain_literal_text in P.
  destruct (cut_long _ _ _ _ E (Nat.lt_le_trans _ _ _ L L2)) as (z & -> & Z & Nz).
  destruct z as [|x' z]; [contradiction|]. inversion Z; subst x' r2. clear Z.
  assert (tidy (chars (z ++ q))) as T2 by (apply (tidy_suffix [fst x]); exact T1).
  destruct (firm_value z q q' _ _ _ T2 V L) as (v' & rest' & alt' & V').
  destruct (opt_value_yes x _ _ _ _ X V') as (rest2 & alt4 & O3).
  destruct (literal_complete s l ((x :: z) ++ q') P (eq_num_stop x _ X)) as (_ & alt5 & O4).
  rewrite <- app_assoc. destruct (then_spanned_ok _ _ _ _ _ _ _ _ _ O4 O3) as (n' & rest3 & alt6 & -> & Sn').
  apply item_inr_of. rewrite Sn'. exact N.
Qed.

(** ** Where a bare identifier ends *)

Definition letter (c : char) : Prop := ident_char c /\ ident_start c.

Lemma bare_greedy u v t r alt : r_out (bare_ident (u ++ v)) = Ok t r alt -> Forall letter (chars u) -> len r <= len v.
Proof.
  intros O F. apply (ok_good _ _ _ _ _ quiet_bare_ident S_bare_ident), bare_ident_sound in O.
  destruct O as (s & E & <- & B & En). destruct (le_lt_dec (len r) (len v)) as [L|L]; [exact L|exfalso].
  destruct (cut_long _ _ _ _ E L) as (z & -> & -> & Nz).
  destruct z as [|x z]; [contradiction|]. unfold chars in F. rewrite map_app in F. apply Forall_app in F.
  destruct F as [_ F]. inversion F as [|? ? [F1 F2] _]; subst.
  cbn [chars map app bare_end] in En. destruct En as [E1 E2].
  apply E2; [|exact F1]. intros Sg. exact (E1 Sg F2).
Qed.

(** ** Where raw strings and keywords fail *)

Lemma until_err {A} (p : parser A) : forall ts alt outs cr e, r_out (until_loop p alt outs cr ts) = Err e ->
  forall u v, ts = u ++ v -> failed (p v).
Proof.
  induction ts as [|[c s] ts IH]; intros alt outs cr e H u v E.
  - destruct u; [|discriminate]. cbn [app] in E. subst v. cbn [until_loop] in H.
    destruct (r_out (p [])) eqn:O; [destruct (merge_alts alt alt0); discriminate|]. eexists. exact O.
  - cbn [until_loop] in H. match type of H with context [r_out (p ?x)] => destruct (r_out (p x)) as [a r al|e0] eqn:O end.
    + destruct (merge_alts alt al). discriminate.
    + destruct (merge_alts alt (Some e0)). destruct u as [|y u].
      * cbn [app] in E. subst v. eexists. exact O.
      * inversion E; subst. eapply IH; [exact H|reflexivity].
Qed.

Definition raw_open : parser nat :=
  p_then_ignore
    (p_ignore_then (p_just 0x72%N) (p_map (@List.length char) (p_repeated (p_just 0x23%N))))
    (p_just 0x22%N).

Lemma quiet_raw_open : quiet raw_open.
Proof. apply quiet_then_ignore; quiets. Qed.

Lemma S_raw_open : Safe raw_open.
Proof.
  apply S_then_ignore; auto with safe. apply S_ignore_then; auto with safe. apply S_map, S_repeated; auto with safe.
  apply eats_just.
Qed.

Lemma near_raw_marks : near 0 anyp (p_ignore_then (p_just 0x72%N) (p_map (@List.length char) (p_repeated (p_just 0x23%N)))).
Proof.
  apply near_ignore_then with (j := 0) (G := anyp).
  - apply noalt_near, noalt_just.
  - apply near_map, near_repeated; [apply noalt_near, noalt_just|apply enear_just|apply eats_just].
  - apply eats0, S_map, S_repeated; [auto with safe|apply eats_just].
  - intros; exact I.
Qed.

Lemma raw_marks_sound (ts : toks) n r alt :
  r_out (p_ignore_then (p_just 0x72%N) (p_map (@List.length char) (p_repeated (p_just 0x23%N))) ts) = Ok n r alt ->
  exists u, ts = u ++ r /\ chars u = 0x72%N :: repeat 0x23%N n.
Proof.
  intros H. apply ok_good in H.
  2:{ apply quiet_ignore_then; quiets. }
  2:{ apply S_ignore_then; auto with safe. apply S_map, S_repeated; [auto with safe|apply eats_just]. }
  gi. match goal with G : good (p_repeated _ _) _ _ |- _ =>
    apply (repeated_one_sound _ _ _ _ _ (one_just 0x23%N)) in G; destruct G as [u [-> [<- [F _]]]] end.
  match goal with |- exists s, ?a :: u ++ _ = _ /\ _ => exists (a :: u) end.
  split; [reflexivity|]. rewrite chars_c. cbn [fst]. f_equal. rewrite (repeat_forall _ _ F) at 1.
  subst. reflexivity.
Qed.

Lemma then_ignore_err2 {A B} (p : parser A) (k : parser B) ts e : near 0 anyp p -> enear 0 anyp k ->
  r_out (p_then_ignore p k ts) = Err e ->
  r_out (p ts) = Err e \/ exists a r alt, r_out (p ts) = Ok a r alt /\ len r <= l_rem e.
Proof.
  intros N K H. apply map_err_inv in H. apply bind_err in H.
  destruct H as [H|(x & r1 & alt1 & ex & c & O & H & M)]; [left; exact H|]. right. exists x, r1, alt1.
  split; [exact O|]. assert (V := K _ _ H I). assert (W := N _ _ _ _ O I).
  destruct alt1 as [e1|]; cbn [lmax_opt within] in *; [apply lmax_rem in M|inversion M; subst]; lia.
Qed.

Lemma then_ignore_just_ok {A} (p : parser A) c ts a r alt : r_out (p_then_ignore p (p_just c) ts) = Ok a r alt ->
  exists x alt', r_out (p ts) = Ok a (x :: r) alt' /\ fst x = c.
Proof.
  intros H. apply map_ok in H. destruct H as ([a1 b1] & H & ->). apply bind_ok in H.
  destruct H as (x & y & r1 & alt1 & alt2 & c' & O & J & _ & E). inversion E; subst.
  destruct r1 as [|[d s] r1]; cbn [p_just] in J; [discriminate|].
  destruct (N.eqb d c) eqn:Q; [|discriminate]. apply N.eqb_eq in Q. cbn [r_out] in J.
  exists (d, s), alt1. split; [|exact Q]. inversion J; subst. exact O.
Qed.

Lemma raw_string_err (ts : toks) e : tidy (chars ts) -> r_out (raw_string ts) = Err e ->
  len ts <= l_rem e \/ exists u v n, ts = u ++ v /\ chars u = 0x72%N :: repeat 0x23%N n /\ len v <= l_rem e.
Proof.
  intros T H. rewrite raw_string_eq in H. apply map_err_inv in H. apply bind_err in H.
  destruct H as [H|(n & r & alt & ex & c & O & H & _)].
  - apply then_ignore_err2 in H; [|apply near_raw_marks|apply enear_just].
    destruct H as [H|(n & r & alt & O & L)].
    + left. apply map_err_inv in H. apply then_total_err in H; [assert (V := enear_just 0x72%N anyp _ _ H I); lia|].
      intros t. destruct (repeat0_ok None (p_just 0x23%N) t) as (a & r & al & X).
      exists (List.length a), r, al. exact (map_first _ _ _ _ _ _ X).
    + right. apply raw_marks_sound in O. destruct O as (u & -> & U). eauto 6.
  - exfalso. apply then_ignore_just_ok in O. destruct O as (x & alt' & O & X).
    apply raw_marks_sound in O. destruct O as (u & -> & U).
    destruct T as (_ & T & _). destruct (T [] n (chars r)) as (v & w & E).
    { rewrite chars_app, U, chars_c, X. cbn [app]. reflexivity. }
    apply chars_starts in E. destruct E as (v1 & v2 & -> & _ & E). apply chars_starts in E.
    destruct E as (w1 & w2 & -> & E & _).
    generalize (span_err_out (Grammar.raw_string_err n) (p_take_until (raw_end n)) (v1 ++ w1 ++ w2)).
    destruct (r_out (p_take_until (raw_end n) (v1 ++ w1 ++ w2))) as [a r0 al|e0] eqn:Z.
    + congruence.
    + intros _. destruct (raw_end_complete n w1 w2 E) as (_ & al & Y).
      destruct (until_err _ _ _ _ _ _ Z v1 (w1 ++ w2) eq_refl) as (e1 & Y'). congruence.
Qed.

Lemma just_str_err s : forall (ts : toks) e, r_out (p_just_str s ts) = Err e ->
  exists u v w, ts = u ++ v /\ s = chars u ++ w /\ len v <= l_rem e.
Proof.
  induction s as [|x s IH]; intros ts e H; cbn [p_just_str] in H; [discriminate|].
  destruct ts as [|[c sp] ts].
  - inversion H; subst. exists [], [], (x :: s). split; [reflexivity|]. split; [reflexivity|]. simpl. lia.
  - destruct (N.eqb c x) eqn:Q.
    + apply N.eqb_eq in Q. subst c. destruct (IH _ _ H) as (u & v & w & -> & -> & L).
      exists ((x, sp) :: u), v, w. split; [reflexivity|]. split; [reflexivity|exact L].
    + cbn [fail r_out unexpected] in H. inversion H; subst. eexists [], _, (x :: s).
      split; [reflexivity|]. split; [reflexivity|]. simpl. lia.
Qed.

(** ** A literal and a bare identifier in the same place *)

Lemma choice_err_low {A} N (ps : list (parser A)) (ts : toks) :
  Forall (fun p => forall e, r_out (p ts) = Err e -> N <= l_rem e) ps -> forall alt0 e,
  match alt0 with Some e0 => N <= l_rem e0 | None => N <= len ts end ->
  r_out (p_choice_from alt0 ps ts) = Err e -> N <= l_rem e.
Proof.
  induction 1 as [|p ps P F IH]; intros alt0 e H; cbn [p_choice_from].
  - destruct alt0; cbn [fail r_out]; intros X; inversion X; subst; [exact H|]. destruct ts as [|[c s] ts]; exact H.
  - destruct (r_out (p ts)) as [a r al|e1] eqn:O; [congruence|].
    destruct (merge_alts alt0 (Some e1)) as [alt1 c] eqn:M. cbn [add_crash r_out]. apply IH.
    specialize (P _ eq_refl). destruct alt0 as [e0|]; cbn [merge_alts] in M.
    + destruct (lmax e1 e0) as [e2 c2] eqn:X. inversion M; subst. apply lmax_rem in X. lia.
    + inversion M; subst. exact P.
Qed.

Definition is_letter (c : char) : bool := is_id_char c && is_id_sans_dig c.

Lemma letters_ok s : forallb is_letter s = true -> Forall letter s.
Proof.
  intros H. apply Forall_forall. intros c J. rewrite forallb_forall in H. specialize (H c J).
  apply andb_prop in H. destruct H as [H1 H2]. split; [apply id_char_spec, H1|apply id_sans_dig_spec, H2].
Qed.

Lemma keyword1_err s l (ts : toks) t r alt e : forallb is_letter (str s) = true ->
  r_out (bare_ident ts) = Ok t r alt -> r_out (keyword1 s l ts) = Err e -> len r <= l_rem e.
Proof.
  intros K B H. unfold keyword1 in H. apply map_err_inv in H. cbn [p_map_err r_out] in H.
  destruct (r_out (p_just_str (str s) ts)) as [a r0 al|e0] eqn:O; [discriminate|]. inversion H; subst. cbn [l_rem].
  apply just_str_err in O. destruct O as (u & v & w & -> & E & L).
  apply letters_ok in K. rewrite E in K. apply Forall_app in K.
  assert (X := bare_greedy u v _ _ _ B (proj1 K)). lia.
Qed.

Lemma raw_err_low (ts : toks) t r alt e : tidy (chars ts) -> r_out (bare_ident ts) = Ok t r alt ->
  r_out (raw_string ts) = Err e -> len r <= l_rem e.
Proof.
  intros T B H. assert (L := suffix_len _ _ (fwd_ok _ _ _ _ _ (proj1 D_bare_ident) B)).
  destruct (raw_string_err _ _ T H) as [X|(u & v & n & -> & U & X)]; [lia|].
  assert (len r <= len v) as Y; [|lia]. apply (bare_greedy u v _ _ _ B). rewrite U. apply letters_ok.
  cbn [forallb]. apply andb_true_intro. split; [reflexivity|]. clear. induction n; [reflexivity|exact IHn].
Qed.

Lemma literal_err_low (ts : toks) t r alt e : tidy (chars ts) -> r_out (bare_ident ts) = Ok t r alt ->
  r_out (literal_ ts) = Err e -> len r <= l_rem e.
Proof.
  intros T B H. assert (L := suffix_len _ _ (fwd_ok _ _ _ _ _ (proj1 D_bare_ident) B)).
  rewrite literal_eq in H. refine (choice_err_low (len r) _ ts _ None e L H).
  constructor; [|constructor; [|constructor; [|constructor]]]; intros e0 H0.
  - apply map_err_inv in H0. rewrite string_eq in H0. refine (or_err_low _ _ _ _ _ _ H0).
    intros e1 e2 R Es. split; [exact (raw_err_low _ _ _ _ _ T B R)|].
    assert (hd (fun c => (c =? 0x22)%N) ts = false) as Q.
    { apply (rej_no _ _ _ _ _ _ rej_bare_ident) in B. destruct ts as [|[c s] ts]; [reflexivity|]. cbn [hd] in *.
      apply N.eqb_neq. intros ->. discriminate B. }
    assert (V := rej_enear _ _ rej_escaped_string _ _ Es Q). lia.
  - rewrite keyword_eq in H0. refine (choice_err_low (len r) _ ts _ None e0 L H0).
    constructor; [|constructor; [|constructor; [|constructor]]]; intros e1 H1;
      refine (keyword1_err _ _ _ _ _ _ _ _ B H1); reflexivity.
  - assert (V := enear_number _ _ H0 I). apply eats_bare_ident in B. lia.
Qed.

Lemma number_start s l : number_text s l -> exists sg d w, s = sg ++ d :: w /\ opt_sign_text sg /\ digit_char 10 d.
Proof.
  intros H. destruct H as [sg x n r s t A R I S|sg s t A I S|sg s f e t A I F X N S].
  - exists sg, 0x30%N, (x :: s). split; [reflexivity|]. split; [exact A|]. apply dec_digit_spec. lia.
  - destruct I as [d w Dg F]. exists sg, d, w. auto.
  - destruct I as [d w Dg F']. exists sg, d, (w ++ f ++ e). auto.
Qed.

Lemma number_idents s l : number_text s l -> Forall ident_char s.
Proof.
  intros H. apply number_all in H. revert H. apply Forall_impl. intros c J. apply id_char_spec.
  assert (forallb is_id_char number_chars = true) as A by (vm_compute; reflexivity).
  rewrite forallb_forall in A. apply A, J.
Qed.

Lemma eq_nonident : nonident 0x3D%N.
Proof. split; [|discriminate]. intros [_ [X _]]. apply X. cbn. lia. Qed.

Lemma bare_no_equals s : bare_text s -> ~ In 0x3D%N s.
Proof.
  intros B J. apply bare_word in B. rewrite Forall_forall in B. apply B in J. exact (nonident_word _ eq_nonident J).
Qed.

Lemma item_not_bare (s : toks) l (x : tok unit) (r : toks) t r1 alt : tidy (chars (s ++ x :: r)) -> fst x = 0x3D%N ->
  In (chars s, l) keyword_literals \/ number_text (chars s) l ->
  r_out (bare_ident (s ++ x :: r)) = Ok t r1 alt -> False.
Proof.
  intros T X [K|Nm] B.
  - assert (forallb is_letter (chars s) = true /\ In (chars s) keywords) as [Le Ke].
    { destruct K as [K|[K|[K|[]]]]; inversion K; (split; [reflexivity|vm_compute; auto]). }
    assert (L := bare_greedy s (x :: r) _ _ _ B (letters_ok _ Le)).
    apply (ok_good _ _ _ _ _ quiet_bare_ident S_bare_ident), bare_ident_sound in B.
    destruct B as (s' & E & <- & Bt & _).
    destruct (cut_length s' r1 s (x :: r)) as (z & -> & Z); [symmetry; exact E|exact L|].
    destruct z as [|y z].
    + rewrite app_nil_r in Bt. destruct Bt as [c C|c d w C Dd F|d w Dd N F Nk]; [| |exact (Nk Ke)];
        destruct Ke as [Q|[Q|[Q|[]]]]; inversion Q; subst; destruct C as [C|C]; discriminate.
    + inversion Z; subst y. apply (bare_no_equals _ Bt). rewrite chars_app, chars_c, X. apply in_or_app. right. left. reflexivity.
  - assert (hd f_bare (s ++ x :: r) = true) as Hb by exact (rej_no _ _ _ _ _ _ rej_bare_ident B).
    assert (Id := number_idents _ _ Nm). destruct (number_start _ _ Nm) as (sg & d & w & E & A & Dg).
    destruct A as [|c C].
    + cbn [app] in E. destruct s as [|y s]; [discriminate|]. inversion E; subst. cbn [app] in Hb.
      destruct y as [y sp]. cbn [hd fst] in *. unfold f_bare in Hb. apply orb_prop in Hb. destruct Hb as [Hb|Hb].
      * apply dec_digit_spec in Dg. lia.
      * apply id_sans_sign_dig_spec in Hb. destruct Hb as [[_ Hb] _]. exact (Hb Dg).
    + destruct T as (_ & _ & _ & T). rewrite E in Id. inversion Id as [|? ? _ Id2]; subst.
      inversion Id2 as [|? ? _ Id3]; subst.
      apply (T [] c d w (chars r) C Dg Id3). rewrite chars_app, E, chars_c, X. cbn [app]. reflexivity.
Qed.

(** ** Arguments and properties *)

Lemma opt_value_total (ts : toks) : exists v rest alt, r_out (opt_value ts) = Ok v rest alt.
Proof.
  unfold opt_value, p_or_not. destruct (r_out (p_ignore_then (p_just 0x3D%N) value_ ts)); cbn [r_out]; eauto.
Qed.

Lemma try_map_err {A B} (f : A -> unit -> B + perror unit) (p : parser A) ts e : r_out (p_try_map f p ts) = Err e ->
  r_out (p ts) = Err e \/ exists a rest alt er, r_out (p ts) = Ok a rest alt /\ f a tt = inr er.
Proof.
  unfold p_try_map. cbn [r_out]. destruct (r_out (p ts)) as [a r al|e0]; [|intros X; left; inversion X; reflexivity].
  destruct (span_since ts (len r)). destruct (f a tt) as [b|er] eqn:F; [discriminate|]. intros _. right. exists a, r, al, er. auto.
Qed.

Lemma validate_ok_inv {A B} (f : A -> unit -> B * option (perror unit)) (p : parser A) ts b rest alt :
  r_out (p_validate f p ts) = Ok b rest alt -> exists a, r_out (p ts) = Ok a rest alt.
Proof.
  unfold p_validate. destruct (r_out (p ts)) as [a r al|e] eqn:O; [|cbn [r_out]; discriminate].
  destruct (f a _). cbn [r_out]. intros X. inversion X; subst. eauto.
Qed.

Lemma spanned_err_inv {A} (p : parser A) ts e : r_out (p_spanned p ts) = Err e -> r_out (p ts) = Err e.
Proof. unfold p_spanned. cbn [p_map_with_span r_out]. destruct (r_out (p ts)); congruence. Qed.

Lemma item_kept (ts : toks) e a rest alt : tidy (chars ts) ->
  r_out (p_try_map literal_item (p_then (p_spanned literal_) opt_value) ts) = Err e ->
  r_out (p_validate ident_item_check (p_then (p_spanned bare_ident) opt_value) ts) = Ok a rest alt ->
  len rest <= l_rem e.
Proof.
  intros T H B. apply validate_ok_inv in B. destruct B as ([n v] & B). clear a.
  apply bind_ok in B. destruct B as (n0 & v0 & r1 & alt1 & alt2 & c & B & V & _ & _).
  assert (L := suffix_len _ _ (fwd_ok _ _ _ _ _ (proj1 D_opt_value) V)).
  apply span_ok in B. destruct B as (t & B & _).
  apply try_map_err in H. destruct H as [H|([n' v'] & r & al & er & H & F)].
  - apply (then_total_err _ _ _ _ opt_value_total) in H. apply spanned_err_inv in H.
    assert (X := literal_err_low _ _ _ _ _ T B H). lia.
  - exfalso. apply item_inr in F. destruct F as (n1 & v1 & X & N). inversion X; subst. clear X.
    apply bind_ok in H. destruct H as (n2 & v2 & r2 & al1 & al2 & c' & H & V' & _ & X). inversion X; subst. clear X.
    apply opt_value_some in V'. destruct V' as (x & r3 & al3 & -> & X & _).
    apply span_ok in H. destruct H as (l & H & E). assert (s_value n2 = l) as Sn by (rewrite E; reflexivity).
    rewrite Sn in N. clear E. destruct (literal_plain_sound _ _ _ _ H N) as (s & -> & P).
    exact (item_not_bare _ _ _ _ _ _ _ T X P B).
Qed.

Lemma paren_not_bare c : (c =? 0x28)%N = true -> f_bare c = false.
Proof. intros H. apply N.eqb_eq in H. subst. reflexivity. Qed.

Lemma D_prop_or_arg_inner : D prop_or_arg_inner.
Proof.
  unfold prop_or_arg_inner. apply D_choice.
  - foralls.
    + assert (D (p_then (p_spanned literal_) opt_value)) as [F H] by (apply D_then; [apply D_spanned|]; auto with early).
      split; [apply fwd_try_map, F|apply det_try_map; [exact H|exact item_name_fails]].
    + apply D_map, D_validate, D_then; [apply D_spanned|]; auto with early.
    + apply D_map, D_type_name_value.
  - split; [|split; [|split; [|exact I]]].
    + intros ts e k a rest alt T X [<-|[<-|[]]] Y.
      * apply map_ok in Y. destruct Y as (y & Y & _). exact (item_kept _ _ _ _ _ T X Y).
      * refine (kept_rej f_lit _ _ _ _ _ _ _ _ _ (rej_map _ _ _ rej_type_name_value) paren_not_lit _ X Y).
        -- apply rej_try_map, rej_then, rej_spanned, rej_literal.
        -- apply fwd_map, D_type_name_value.
    + intros ts e k a rest alt T X [<-|[]] Y.
      refine (kept_rej f_bare _ _ _ _ _ _ _ _ _ (rej_map _ _ _ rej_type_name_value) paren_not_bare _ X Y).
      * apply rej_map, rej_validate, rej_then, rej_spanned, rej_bare_ident.
      * apply fwd_map, D_type_name_value.
    + intros ts e k a rest alt T X [].
Qed.
#[export] Hint Resolve D_prop_or_arg_inner : early.

Lemma D_prop_or_arg : D prop_or_arg.
Proof.
  unfold prop_or_arg. apply D_or; [|auto with early|].
  - apply D_map, D_ignore_then; [|auto with early]. ds.
  - intros ts. match goal with |- context [r_out (p_map ?f ?p ts) = _] => destruct (r_out (p_map f p ts)) as [a r alt|e] eqn:O end;
      [|right; left; eauto].
    right. right. assert (hd f_item ts = false) as H; [|].
    + assert (hd (fun c => (c =? 0x2F)%N) ts = true) as Y.
      { refine (rej_no _ _ _ _ _ _ _ O). apply rej_map, rej_map, rej_then, rej_map, rej_then, rej_begin_comment. }
      destruct ts as [|[c s] ts]; [reflexivity|]. cbn [hd] in *. apply N.eqb_eq in Y. subst. reflexivity.
    + destruct (rej_prop_or_arg_inner ts H) as (e & X & _). exact (ex_intro _ _ (f_equal r_out X)).
Qed.
#[export] Hint Resolve D_prop_or_arg : early.
