(** No panic in the parsers of items, nodes and documents.

    An error that cannot be merged (a number used as a property name) is only
    ever compared with errors at other places: it lies after the value, at least
    three tokens beyond the number, and what is tried next fails before. *)

From Coq Require Import NArith PeanoNat List Bool String Lia ZifyBool Wf_nat.
From Verif Require Import Chars Ast Errors Chumsky Spans Grammar Safe GrammarSafe
  Near GrammarNear.
Import ListNotations.
Local Open Scope list_scope.

Section NodeSafe.
Context {Sp : Type} {E : env Sp}.

Notation parser := (parser Sp).
Notation toks := (toks Sp).
Notation located := (located Sp).
Notation len := (@List.length (tok Sp)).

Lemma bind_out_ok {A B} (p : parser A) (q : A -> parser B) ts a r1 alt1 b r2 alt2 :
  r_out (p ts) = Ok a r1 alt1 -> r_out (q a r1) = Ok b r2 alt2 ->
  r_out (p_bind p q ts) = Ok (a, b) r2 (fst (merge_alts alt1 alt2)) /\
  r_crash (p_bind p q ts)
    = r_crash (p ts) ++ r_crash (q a r1) ++ snd (merge_alts alt1 alt2).
Proof.
  intros P Q. unfold p_bind. rewrite P, Q.
  destruct (merge_alts alt1 alt2). split; reflexivity.
Qed.

Lemma bind_out_err {A B} (p : parser A) (q : A -> parser B) ts a r1 alt1 e :
  r_out (p ts) = Ok a r1 alt1 -> r_out (q a r1) = Err e ->
  r_out (p_bind p q ts) = Err (fst (lmax_opt e alt1)) /\
  r_crash (p_bind p q ts)
    = r_crash (p ts) ++ r_crash (q a r1) ++ snd (lmax_opt e alt1).
Proof.
  intros P Q. unfold p_bind. rewrite P, Q.
  destruct (lmax_opt e alt1). split; reflexivity.
Qed.

Lemma bind_out_err1 {A B} (p : parser A) (q : A -> parser B) ts e :
  r_out (p ts) = Err e ->
  r_out (p_bind p q ts) = Err e /\ r_crash (p_bind p q ts) = r_crash (p ts).
Proof. intros P. unfold p_bind. rewrite P. split; reflexivity. Qed.

Lemma merge_calm n a b : calm_opt n a -> calm_opt n b ->
  calm_opt n (fst (@merge_alts Sp a b)) /\ snd (merge_alts a b) = [].
Proof.
  intros Ha Hb. destruct (merge_alts a b) as [m c] eqn:M.
  exact (merge_alts_calm n a b m c Ha Hb M).
Qed.

Lemma lmaxo_calm n a b : calm_err n a -> calm_opt n b ->
  calm_err n (fst (@lmax_opt Sp a b)) /\ snd (lmax_opt a b) = [].
Proof.
  intros Ha Hb. destruct (lmax_opt a b) as [m c] eqn:M.
  exact (lmax_opt_calm n a b m c Ha Hb M).
Qed.

Lemma merge_far_r j r a e : within j r a -> l_rem e + j < len r ->
  merge_alts a (Some e) = (Some e, []).
Proof.
  destruct a as [a|]; simpl; auto. intros W L.
  rewrite lmax_lt; auto. lia.
Qed.
Lemma merge_far_l j r b e : within j r b -> l_rem e + j < len r ->
  merge_alts (Some e) b = (Some e, []).
Proof.
  destruct b as [b|]; simpl; auto. intros W L.
  rewrite lmax_gt; auto. lia.
Qed.
Lemma lmaxo_far_l j r b e : within j r b -> l_rem e + j < len r ->
  lmax_opt e b = (e, []).
Proof.
  destruct b as [b|]; simpl; auto. intros W L. apply lmax_lt. lia.
Qed.
Lemma lmaxo_far_r j (r : toks) b e : len r <= l_rem b + j -> l_rem e + j < len r ->
  lmax_opt b (Some e) = (@pair located _ e []).
Proof. simpl. intros W L. apply lmax_gt. lia. Qed.

Lemma lmaxo_rem (e : located) o : forall k r, len r <= l_rem e + k ->
  within k r o -> len r <= l_rem (fst (lmax_opt e o)) + k.
Proof.
  intros k r. destruct o as [o|]; simpl; auto. intros H1 H2.
  destruct (lmax e o) as [m c] eqn:M. simpl. apply lmax_rem in M. lia.
Qed.

Lemma mergeo_within k r a b : within k r a -> within k r b ->
  within k r (fst (@merge_alts Sp a b)).
Proof.
  intros Ha Hb. destruct (merge_alts a b) as [m c] eqn:M.
  simpl. eapply merge_within; eauto.
Qed.

Lemma Safe_out {A} (p : parser A) ts : Safe p ->
  r_crash (p ts) = [] /\
  match r_out (p ts) with
  | Ok _ rest alt => suffix rest ts /\ calm_opt (len ts) alt
  | Err e => calm_err (len ts) e
  end.
Proof. intros H. destruct (H (len ts) ts (le_n _)) as [C O]. split; auto. Qed.

Lemma calm_le n m (o : option located) : calm_opt n o -> n <= m -> calm_opt m o.
Proof. intros. eapply calm_opt_weaken; eauto. Qed.

(** Results of combinators over parsers that stay abstract. *)

Lemma map_crash {A B} (f : A -> B) (p : parser A) ts :
  r_crash (p_map f p ts) = r_crash (p ts).
Proof. reflexivity. Qed.

Lemma map_out {A B} (f : A -> B) (p : parser A) ts :
  r_out (p_map f p ts) = match r_out (p ts) with
                         | Ok a rest alt => Ok (f a) rest alt
                         | Err e => Err e
                         end.
Proof. reflexivity. Qed.

Lemma try_map_crash {A B} (f : A -> Sp -> B + perror Sp) (p : parser A) ts :
  r_crash (p_try_map f p ts) = r_crash (p ts).
Proof. reflexivity. Qed.

Lemma try_map_cases {A B} (f : A -> Sp -> B + perror Sp) (p : parser A) ts :
  (exists a rest alt b s, r_out (p ts) = Ok a rest alt /\ f a s = inl b
     /\ r_out (p_try_map f p ts) = Ok b rest alt)
  \/ (exists a rest alt e s, r_out (p ts) = Ok a rest alt /\ f a s = inr e
     /\ r_out (p_try_map f p ts) = Err (Located (len rest) e))
  \/ (exists e, r_out (p ts) = Err e /\ r_out (p_try_map f p ts) = Err e).
Proof.
  unfold p_try_map. cbn [r_out].
  destruct (r_out (p ts)) as [a rest alt|e].
  - destruct (f a _) as [b|e] eqn:F; [left|right; left]; repeat eexists; eauto.
  - right; right. eauto.
Qed.

Lemma validate_err {A B} (f : A -> Sp -> B * option (perror Sp)) (p : parser A) ts e :
  r_out (p_validate f p ts) = Err e -> r_out (p ts) = Err e.
Proof.
  unfold p_validate. destruct (r_out (p ts)) as [a r al|e1].
  - destruct (f a (span_since ts (len r))). discriminate.
  - cbn [r_out]. intros X; inversion X; reflexivity.
Qed.

Lemma or_not_cases {A} (p : parser A) ts :
  r_crash (p_or_not p ts) = r_crash (p ts) /\
  ((exists a rest alt, r_out (p ts) = Ok a rest alt
      /\ r_out (p_or_not p ts) = Ok (Some a) rest alt)
   \/ exists e, r_out (p ts) = Err e /\ r_out (p_or_not p ts) = Ok None ts (Some e)).
Proof.
  unfold p_or_not. destruct (r_out (p ts)) as [a rest alt|e]; split; auto;
    [left|right]; eauto 6.
Qed.

Lemma choice3_first {A} (p1 p2 p3 : parser A) ts a rest alt :
  r_out (p1 ts) = Ok a rest alt -> p_choice [p1; p2; p3] ts = p1 ts.
Proof. intros Q. unfold p_choice. cbn [p_choice_from]. now rewrite Q. Qed.

Lemma choice3_second {A} (p1 p2 p3 : parser A) ts e1 a rest alt :
  r_out (p1 ts) = Err e1 -> r_out (p2 ts) = Ok a rest alt ->
  r_out (p_choice [p1; p2; p3] ts) = Ok a rest alt /\
  r_crash (p_choice [p1; p2; p3] ts) = r_crash (p1 ts) ++ r_crash (p2 ts).
Proof.
  intros Q1 Q2. unfold p_choice. cbn [p_choice_from]. rewrite Q1, Q2. cbn [merge_alts].
  unfold add_crash. cbn [r_out r_crash]. split; auto. rewrite ?app_nil_r. reflexivity.
Qed.

Lemma choice3_third {A} (p1 p2 p3 : parser A) ts e1 e2 :
  r_out (p1 ts) = Err e1 -> r_out (p2 ts) = Err e2 ->
  (forall a rest alt, r_out (p3 ts) = Ok a rest alt ->
    r_out (p_choice [p1; p2; p3] ts) = Ok a rest alt /\
    r_crash (p_choice [p1; p2; p3] ts)
      = r_crash (p1 ts) ++ r_crash (p2 ts) ++ snd (lmax e2 e1) ++ r_crash (p3 ts)) /\
  (forall e3, r_out (p3 ts) = Err e3 ->
    r_out (p_choice [p1; p2; p3] ts) = Err (fst (lmax e3 (fst (lmax e2 e1)))) /\
    r_crash (p_choice [p1; p2; p3] ts)
      = r_crash (p1 ts) ++ r_crash (p2 ts) ++ snd (lmax e2 e1)
        ++ r_crash (p3 ts) ++ snd (lmax e3 (fst (lmax e2 e1)))).
Proof.
  intros Q1 Q2. unfold p_choice. cbn [p_choice_from]. rewrite Q1, Q2. cbn [merge_alts].
  destruct (lmax e2 e1) as [m c]. cbn [fst snd]. split.
  - intros a rest alt Q3. rewrite Q3. unfold add_crash. cbn [r_out r_crash].
    split; auto. rewrite ?app_nil_r, <- ?app_assoc. reflexivity.
  - intros e3 Q3. rewrite Q3. cbn [merge_alts]. destruct (lmax e3 m) as [m2 c2].
    unfold add_crash, fail. cbn [r_out r_crash fst snd].
    split; auto. rewrite ?app_nil_r, <- ?app_assoc. reflexivity.
Qed.

(** ** One item *)

Lemma keyword_val ts l rest alt : r_out (keyword ts) = Ok l rest alt ->
  l = LNull \/ exists b, l = LBool b.
Proof.
  unfold keyword. intros Q. apply choice3_ok in Q as [Q|[Q|Q]];
    apply map_ok in Q as [x [_ ->]]; eauto.
Qed.

Lemma literal_num_hd ts l rest alt : r_out (literal_ ts) = Ok l rest alt ->
  (exists r s, l = LInt r s) \/ (exists s, l = LDecimal s) ->
  hd f_num ts = true.
Proof.
  unfold literal_. intros Q L. apply choice3_ok in Q as [Q|[Q|Q]].
  - apply map_ok in Q as [x [_ ->]]. destruct L as [(r & s & L)|(s & L)]; discriminate.
  - apply keyword_val in Q as [->|[b ->]];
      destruct L as [(r & s & L)|(s & L)]; discriminate.
  - exact (rej_no _ _ _ _ _ _ rej_number Q).
Qed.

Lemma opt_value_some ts v rest alt : r_out (opt_value ts) = Ok (Some v) rest alt ->
  len rest + 2 <= len ts.
Proof.
  unfold opt_value, p_or_not.
  destruct (r_out (p_ignore_then _ _ ts)) as [a r al|e] eqn:Q; simpl; [|discriminate].
  intros X; inversion X; subst.
  eapply (eats_ignore_then 1 1); [apply eats_just|apply eats_value|exact Q].
Qed.

Lemma opt_value_ok ts : exists o r alt, r_out (@opt_value Sp E ts) = Ok o r alt.
Proof. apply or_not_ok. Qed.

Opaque literal_ opt_value node_space type_name_value.

Definition item1 : parser (@prop_or_arg_t Sp) :=
  p_try_map literal_item (p_then (p_spanned literal_) opt_value).
Definition item2 : parser (@prop_or_arg_t Sp) :=
  p_map ident_item
    (p_validate ident_item_check (p_then (p_spanned bare_ident) opt_value)).
Definition item3 : parser (@prop_or_arg_t Sp) := p_map Arg_ type_name_value.

Lemma literal_item_err name v s e :
  @literal_item Sp (name, v) s = inr e ->
  v <> None /\ (mergeable e \/ (exists r s, s_value name = LInt r s)
                \/ (exists s, s_value name = LDecimal s)).
Proof.
  unfold literal_item. destruct v as [v|]; destruct (s_value name); try discriminate;
    intros X; inversion X; subst; simpl; split; eauto; discriminate.
Qed.

Lemma item1_spec ts : r_crash (item1 ts) = [] /\
  match r_out (item1 ts) with
  | Ok _ rest alt => suffix rest ts /\ calm_opt (len ts) alt
  | Err e => calm_err (len ts) e \/ (l_rem e + 3 <= len ts /\ hd f_num ts = true)
  end.
Proof.
  unfold item1. rewrite try_map_crash.
  assert (S0 : Safe (p_then (p_spanned (@literal_ Sp E)) opt_value))
    by auto with safe.
  destruct (Safe_out _ ts S0) as [C O]. clear S0. split; auto.
  destruct (try_map_cases literal_item (p_then (p_spanned literal_) opt_value) ts)
    as [(a & rest & alt & b & s & P & F & R)
       |[(a & rest & alt & e & s & P & F & R)|(e & P & R)]];
    rewrite R; rewrite P in O; auto.
  destruct O as [Sx Al].
  apply bind_ok in P as (a1 & b & r1 & alt1 & alt2 & c & Q1 & Q2 & _ & ->).
  apply span_ok in Q1 as [l [Q1 ->]].
  apply literal_item_err in F as [N F]. cbn [s_value] in F.
  destruct b as [v|]; [|congruence].
  pose proof (opt_value_some _ _ _ _ Q2). pose proof (eats_literal _ _ _ _ Q1).
  destruct F as [F|F].
  - left. split; auto. cbn [l_rem]. lia.
  - right. cbn [l_rem]. split; [lia|]. exact (literal_num_hd _ _ _ _ Q1 F).
Qed.

Lemma S_item2 : Safe item2.
Proof. unfold item2. auto with safe. Qed.
Lemma S_item3 : Safe item3.
Proof. unfold item3. auto with safe. Qed.

Lemma exactly1_ok {A} (p : parser A) ts a rest alt :
  r_out (p ts) = Ok a rest alt -> exists alt', r_out (p_exactly 1 p ts) = Ok [a] rest alt'.
Proof.
  intros Q. unfold p_exactly, p_repeat.
  change (3 + len ts) with (S (S (S (len ts)))).
  generalize (S (len ts)) as fuel. intros fuel. cbn [repeat_loop List.length Nat.leb].
  rewrite Q. destruct (merge_alts None alt). simpl. eauto.
Qed.

Lemma plus_minus_ok c s ts : ((c =? 0x2D) || (c =? 0x2B))%N = true ->
  exists alt, r_out (@plus_minus Sp E ((c, s) :: ts)) = Ok c ts alt.
Proof.
  intros H. apply orb_prop in H as [H|H]; apply N.eqb_eq in H; subst;
    unfold plus_minus, p_or; simpl; eauto.
Qed.

Lemma not_keyword_sign c t s : ((c =? 0x2D) || (c =? 0x2B))%N = true ->
  @not_keyword Sp (c :: t) s = inl (c :: t).
Proof.
  intros H.
  assert (K : forall x u, x <> 0x2D%N -> x <> 0x2B%N ->
     text_eqb (c :: t) (x :: u) = false).
  { intros x u H1 H2. unfold text_eqb.
    destruct (list_eq_dec N.eq_dec (c :: t) (x :: u)) as [X|]; auto.
    inversion X; subst. lia. }
  unfold not_keyword. cbn [str]. rewrite !K; auto; vm_compute; discriminate.
Qed.

Lemma choice3_err {A} (p1 p2 p3 : parser A) ts e :
  r_out (p_choice [p1; p2; p3] ts) = Err e -> exists e2, r_out (p2 ts) = Err e2.
Proof.
  intros Q. destruct (r_out (p1 ts)) as [a r al|e1] eqn:Q1.
  - rewrite (choice3_first _ _ _ _ _ _ _ Q1) in Q. congruence.
  - destruct (r_out (p2 ts)) as [a r al|e2] eqn:Q2; eauto.
    destruct (choice3_second _ _ p3 _ _ _ _ _ Q1 Q2) as [X _]. congruence.
Qed.

Lemma bare_ident_sign c s ts : ((c =? 0x2D) || (c =? 0x2B))%N = true ->
  forall e, r_out (@bare_ident Sp E ((c, s) :: ts)) <> Err e.
Proof.
  intros H e. destruct (plus_minus_ok c s ts H) as [alt P].
  destruct (exactly1_ok _ _ _ _ _ P) as [alt' P2]. unfold bare_ident.
  match goal with |- r_out (p_try_map ?f ?p ?t) <> _ =>
    destruct (try_map_cases f p t)
      as [(a & rest & al & b & sp & Q & F & ->)
         |[(a & rest & al & e1 & sp & Q & F & _)|(e1 & Q & _)]] end.
  - discriminate.
  - exfalso. apply choice3_ok in Q as [Q|[Q|Q]].
    + apply map_ok in Q as [x [Q ->]].
      apply bind_ok in Q as (u & v & r1 & alt1 & alt2 & cr & Q1 & Q2 & _ & ->).
      rewrite P in Q1. inversion Q1; subst. cbn [cons2 fst snd] in F.
      unfold cons2 in F; cbn [fst snd] in F. rewrite not_keyword_sign in F; auto. discriminate.
    + pose proof (eq_trans (eq_sym P2) Q) as X. inversion X; subst.
      rewrite not_keyword_sign in F; auto.
      discriminate.
    + apply map_ok in Q as [x [Q ->]].
      apply bind_ok in Q as (u & v & r1 & alt1 & alt2 & cr & Q1 & Q2 & _ & ->).
      unfold id_sans_sign_dig in Q1.
      revert Q1. unfold p_map_err, p_filter. cbn [r_out].
      replace (is_id_sans_sign_dig c) with false; [discriminate|].
      unfold is_id_sans_sign_dig. apply orb_prop in H as [H|H]; apply N.eqb_eq in H;
        now subst.
  - apply choice3_err in Q as [e2 Q].
    pose proof (eq_trans (eq_sym P2) Q) as X. discriminate X.
Qed.

Opaque bare_ident.

Lemma item2_err ts e : r_out (item2 ts) = Err e -> r_out (bare_ident ts) = Err e.
Proof.
  unfold item2. intros Q. apply map_err_inv, validate_err in Q.
  apply bind_err in Q as [R|(a & r1 & alt1 & e2 & c & R1 & R2 & _)].
  - now apply span_err in R.
  - destruct (opt_value_ok r1) as (x & y & z & X). congruence.
Qed.

Definition f_dig (c : char) : bool := is_digit 10 c.

Lemma dig_cases c : f_dig c = true -> (0x30 <= c <= 0x39)%N.
Proof.
  unfold f_dig, is_digit, to_digit.
  destruct ((0x30 <=? c) && (c <=? 0x39))%N eqn:A; [lia|].
  destruct ((0x61 <=? c) && (c <=? 0x7A))%N eqn:B.
  - destruct (c - 97 + 10 <? 10)%N eqn:D; [lia|discriminate].
  - destruct ((0x41 <=? c) && (c <=? 0x5A))%N eqn:B2; [|discriminate].
    destruct (c - 65 + 10 <? 10)%N eqn:D; [lia|discriminate].
Qed.

(** Classes that contain no digit. *)
Lemma dig_ws c : f_dig c = true -> f_ns c = false.
Proof.
  intros H. apply dig_cases in H. unfold f_ns, f_ws, is_ws_char. lia.
Qed.
Lemma dig_bare c : f_dig c = true -> f_bare c = false.
Proof.
  intros H. apply dig_cases in H. unfold f_bare, is_id_sans_sign_dig, is_dec_digit. lia.
Qed.

Lemma inner_spec ts : r_crash (prop_or_arg_inner ts) = [] /\
  match r_out (prop_or_arg_inner ts) with
  | Ok _ rest alt => suffix rest ts /\ calm_opt (len ts) alt
  | Err e => calm_err (len ts) e \/ (l_rem e + 3 <= len ts /\ hd f_dig ts = true)
  end.
Proof.
  change (@prop_or_arg_inner Sp E) with (p_choice [item1; item2; item3]).
  destruct (item1_spec ts) as [C1 O1].
  destruct (Safe_out _ ts S_item2) as [C2 O2].
  destruct (Safe_out _ ts S_item3) as [C3 O3].
  destruct (r_out (item1 ts)) as [a1 r1 al1|e1] eqn:Q1.
  { rewrite (choice3_first _ _ _ _ _ _ _ Q1), Q1. auto. }
  destruct (r_out (item2 ts)) as [a2 r2 al2|e2] eqn:Q2.
  { destruct (choice3_second _ _ item3 _ _ _ _ _ Q1 Q2) as [X1 X2].
    rewrite X1, X2, C1, C2. auto. }
  destruct (choice3_third _ _ item3 _ _ _ Q1 Q2) as [T1 T2].
  destruct O1 as [K1|[L1 H1]].
  - destruct (lmax e2 e1) as [m cm] eqn:M. cbn [fst snd] in T1, T2.
    destruct (lmax_calm _ _ _ _ _ O2 K1 M) as [K2 ->].
    destruct (r_out (item3 ts)) as [a3 r3 al3|e3] eqn:Q3.
    + destruct (T1 _ _ _ eq_refl) as [X1 X2]. rewrite X1, X2, C1, C2, C3. auto.
    + destruct (T2 _ eq_refl) as [X1 X2]. rewrite X1, X2, C1, C2, C3.
      destruct (lmax e3 m) as [m2 cm2] eqn:M2. cbn [fst snd].
      destruct (lmax_calm _ _ _ _ _ O3 K2 M2) as [K3 ->]. auto.
  - (* the number is used as a name *)
    assert (HD : hd f_dig ts = true).
    { destruct ts as [|[c s] ts]; [discriminate|]. cbn [hd] in H1 |- *.
      unfold f_num in H1. apply orb_prop in H1 as [H1|H1]; auto. exfalso.
      apply item2_err in Q2. revert Q2. now apply bare_ident_sign. }
    pose proof (rej_enear _ _ rej_bare_ident _ _ (item2_err _ _ Q2)
                  (hd_excl _ _ _ HD dig_bare)) as L2.
    rewrite lmax_gt in T1, T2 by lia. cbn [fst snd] in T1, T2.
    assert (HP : hd (fun x => (x =? 0x28)%N) ts = false).
    { apply (hd_excl _ _ _ HD). intros c D. apply dig_cases in D. lia. }
    destruct (rej_map _ Arg_ _ rej_type_name_value ts HP) as [e3 [Q3 M3]].
    change (p_map Arg_ type_name_value ts) with (item3 ts) in Q3.
    rewrite Q3 in T2. destruct (T2 _ eq_refl) as [X1 X2].
    rewrite X1, X2, C1, C2. cbn [r_crash fail].
    rewrite lmax_gt by (cbn [l_rem]; lia). cbn [fst snd]. auto.
Qed.

Lemma suffix_skipn n ts : suffix (skipn n ts) (ts : toks).
Proof. exists (firstn n ts). symmetry. apply firstn_skipn. Qed.

Lemma sl_len x ts : sl x (ts : toks) = true -> len ts = len (skipn 2 ts) + 2.
Proof.
  destruct ts as [|[a s] [|[b s'] ts]]; try discriminate. simpl. lia.
Qed.

(** Where, after an optional slashdash, a character of class [f] stands. *)
Definition at_after (f : char -> bool) (ts q : toks) : Prop :=
  hd f q = true /\
  (q = ts \/ (sl 0x2D%N ts = true /\
     exists a alt, r_out (p_repeated node_space (skipn 2 ts)) = Ok a q alt)).

Lemma S_nss : Safe (p_repeated (@node_space Sp E)).
Proof. apply S_repeated; auto with safe. Qed.
Lemma S_nss1 : Safe (p_repeat 1 None (@node_space Sp E)).
Proof. apply S_repeat; auto with safe. Qed.

Lemma at_after_len f ts q : at_after f ts q -> len q <= len ts.
Proof.
  intros [_ [->|[S (a & alt & Q)]]]; auto.
  apply (eats0 _ S_nss) in Q. apply sl_len in S. lia.
Qed.

Lemma sl_minus_hd ts : sl 0x2D%N (ts : toks) = true -> hd (fun c => (c =? 0x2F)%N) ts = true.
Proof.
  destruct ts as [|[a s] [|[b s'] ts]]; try discriminate. simpl.
  now intros H%andb_prop.
Qed.

Lemma slash_not_item c : (c =? 0x2F)%N = true -> f_item c = false.
Proof. intros H. apply N.eqb_eq in H. now subst. Qed.
Lemma item_not_back c : f_item c = true -> (c =? 0x5C)%N = false.
Proof. intros H. apply N.eqb_neq. intros ->. discriminate H. Qed.
Lemma item_not_slash c : f_item c = true -> (c =? 0x2F)%N = false.
Proof. intros H. apply N.eqb_neq. intros ->. discriminate H. Qed.

Lemma ns_calm_hd f ts : hd f ts = true ->
  (forall c, f c = true -> (c =? 0x2F)%N = false /\ (c =? 0x5C)%N = false) ->
  ns_calm (ts : toks).
Proof.
  intros H X. split.
  - apply sl_hd, (hd_excl _ _ _ H). intros c F. now apply X.
  - apply (hd_excl _ _ _ H). intros c F. now apply X.
Qed.

Lemma ns_calm_sl x ts : sl x (ts : toks) = true -> x <> 0x2A%N -> ns_calm ts.
Proof.
  intros H N. split; [eapply sl_excl; eauto|].
  destruct ts as [|[a s] [|[b s'] ts]]; try discriminate. simpl in *. lia.
Qed.

Lemma dig_calm ts : hd f_dig ts = true -> ns_calm (ts : toks).
Proof.
  intros H. apply (ns_calm_hd _ _ H). intros c D. apply dig_cases in D. lia.
Qed.

Lemma at_after_calm f ts q : at_after f ts q ->
  (forall c, f c = true -> (c =? 0x2F)%N = false /\ (c =? 0x5C)%N = false) ->
  ns_calm (ts : toks).
Proof.
  intros [H [->|[S _]]] X.
  - eapply ns_calm_hd; eauto.
  - apply (ns_calm_sl _ _ S). discriminate.
Qed.

Definition ignored_item : parser (@prop_or_arg_t Sp) :=
  p_map (fun _ => Ignore_)
    (p_ignore_then
      (p_ignore_then (begin_comment 0x2D%N) (p_repeated node_space))
      prop_or_arg_inner).

Lemma prefix_out ts : sl 0x2D%N ts = true ->
  forall a q alt, r_out (p_repeated node_space (skipn 2 ts)) = Ok a q alt ->
  r_out (p_ignore_then (begin_comment 0x2D%N) (p_repeated node_space) ts)
    = Ok a q alt.
Proof.
  intros S a q alt Q. unfold p_ignore_then, p_then. rewrite map_out.
  destruct (bind_out_ok (begin_comment 0x2D%N) (fun _ => p_repeated node_space) ts
    tt (skipn 2 ts) None a q alt) as [X _]; auto.
  - now rewrite begin_comment_yes.
  - rewrite X. cbn [merge_alts fst snd]. now destruct alt.
Qed.

Lemma S_prefix : Safe (p_ignore_then (begin_comment 0x2D%N) (p_repeated (@node_space Sp E))).
Proof. apply S_ignore_then; auto with safe. Qed.

Lemma ignored_gen {A B C} (f : B -> C) (pre : parser A) (q : parser B) ts :
  Safe pre -> (forall r, r_crash (q r) = []) ->
  (forall r, match r_out (q r) with
             | Ok _ rest alt => suffix rest r /\ calm_opt (len r) alt
             | Err e => calm_err (len r) e \/ (l_rem e + 3 <= len r /\ hd f_dig r = true)
             end) ->
  (forall a r alt, r_out (pre ts) = Ok a r alt -> hd f_dig r = true -> within 1 r alt) ->
  r_crash (p_map f (p_ignore_then pre q) ts) = [] /\
  match r_out (p_map f (p_ignore_then pre q) ts) with
  | Ok _ rest alt => suffix rest ts /\ calm_opt (len ts) alt
  | Err e => calm_err (len ts) e \/
      exists a r alt, r_out (pre ts) = Ok a r alt /\ hd f_dig r = true
        /\ l_rem e + 3 <= len r
  end.
Proof.
  intros Hp Hc Hq Hn. destruct (Safe_out _ ts Hp) as [C0 O].
  unfold p_ignore_then, p_then. rewrite !map_crash, !map_out.
  destruct (r_out (pre ts)) as [a r1 al1|e1] eqn:P.
  - destruct O as [S1 A1]. pose proof (suffix_len _ _ S1) as L1.
    specialize (Hq r1). specialize (Hc r1).
    destruct (r_out (q r1)) as [b r2 al2|e2] eqn:Q.
    + destruct (bind_out_ok pre (fun _ => q) ts a r1 al1 b r2 al2 P Q) as [X1 X2].
      rewrite X1, X2. destruct Hq as [S2 A2].
      destruct (merge_calm (len ts) al1 al2) as [M1 M2]; auto.
      { eapply calm_le; eauto. }
      rewrite C0, Hc, M2. repeat split; auto. eapply suffix_trans; eauto.
    + destruct (bind_out_err pre (fun _ => q) ts a r1 al1 e2 P Q) as [X1 X2].
      rewrite X1, X2, C0, Hc.
      destruct Hq as [K|[L H]].
      * destruct (lmaxo_calm (len ts) e2 al1) as [M1 M2]; auto.
        { eapply calm_weaken; eauto. }
      * rewrite (lmaxo_far_l 1 r1 al1 e2) by (eauto; lia). cbn [fst snd]. split; auto.
        right. eauto 6.
  - destruct (bind_out_err1 pre (fun _ => q) ts e1 P) as [X1 X2]. rewrite X1, X2. auto.
Qed.

Lemma prefix_inv ts a q alt :
  r_out (p_ignore_then (begin_comment 0x2D%N) (p_repeated node_space) ts)
    = Ok a q alt ->
  sl 0x2D%N ts = true /\
  r_out (p_repeated (@node_space Sp E) (skipn 2 ts)) = Ok a q alt.
Proof.
  intros P. apply map_ok in P as [y [P Y]].
  apply bind_ok in P as (u & v & w & al1 & al2 & c & P1 & P2 & M & ->).
  pose proof (begin_comment_ok _ _ _ _ _ P1) as SL. split; auto.
  rewrite begin_comment_yes in P1 by auto. cbn [r_out] in P1.
  assert (w = skipn 2 ts) as -> by congruence.
  assert (al1 = None) as -> by congruence. subst a.
  cbn [snd]. cbn [merge_alts] in M. rewrite P2. destruct al2; congruence.
Qed.

Lemma ignored_item_spec ts : r_crash (ignored_item ts) = [] /\
  match r_out (ignored_item ts) with
  | Ok _ rest alt => suffix rest ts /\ calm_opt (len ts) alt
  | Err e => calm_err (len ts) e \/
      (sl 0x2D%N ts = true /\ exists q, at_after f_dig ts q /\ l_rem e + 3 <= len q)
  end.
Proof.
  unfold ignored_item.
  destruct (ignored_gen (fun _ => @Ignore_ Sp)
    (p_ignore_then (begin_comment 0x2D%N) (p_repeated (@node_space Sp E)))
    prop_or_arg_inner ts S_prefix) as [C O].
  - intros r. apply inner_spec.
  - intros r. apply inner_spec.
  - intros a r alt P H. apply prefix_inv in P as [_ P].
    apply (near_node_spaces _ _ _ _ P), dig_calm, H.
  - split; auto.
    destruct (r_out (p_map _ _ ts)) as [a rest alt|e]; auto.
    destruct O as [K|(a & r & alt & P & H & L)]; auto. right.
    apply prefix_inv in P as [SL P]. split; auto. exists r. split; auto.
    split; auto. right. eauto.
Qed.

Lemma or_calm_gen {A} (p q : parser A) ts :
  r_errs (q ts) = [] ->
  forall eq, r_out (q ts) = Err eq -> calm_err (len ts) eq -> l_rem eq = len ts ->
  r_crash (p ts) = [] -> r_crash (q ts) = [] ->
  match r_out (p ts) with
  | Ok _ rest alt => suffix rest ts /\ calm_opt (len ts) alt
  | Err e => calm_err (len ts) e \/ l_rem e + 1 <= len ts
  end ->
  r_crash (p_or p q ts) = [] /\
  match r_out (p_or p q ts) with
  | Ok a rest alt => suffix rest ts /\ calm_opt (len ts) alt
      /\ exists alt0, r_out (p ts) = Ok a rest alt0
  | Err e => calm_err (len ts) e \/ r_out (p ts) = Err e
  end.
Proof.
  intros Eq eq Q Kq Lq Cp Cq O.
  destruct (p_or_cases p q ts) as
    [(a & rest & alt & He & Ho & X)
    |[D [(a & rest & alt & alt' & c & Ho & He & M & X)
        |[(a & rest & alt & alt' & c & Ho & M & X)
         |(ea & eb & Ha & Hb & [[X _]|[[X _]|(e & c & M & Le & X)]])]]]];
  rewrite X; cbn [r_crash r_out].
  - rewrite Ho in O |- *. split; auto. destruct O. eauto.
  - rewrite Ho in O. rewrite Q in M. cbn [branch_alt] in M.
    destruct O as [S0 A0].
    destruct (merge_alts_calm (len ts) alt (Some eq) alt' c A0 Kq M) as [M1 ->].
    rewrite Cp, Cq. eauto 6.
  - congruence.
  - rewrite Cp, Cq. auto.
  - rewrite Q in Hb. inversion Hb; subst. rewrite Cp, Cq. auto.
  - rewrite Q in Hb. inversion Hb; subst. rewrite Ha in O.
    destruct O as [K|L]; [|lia].
    destruct (lmax_calm (len ts) ea eb e c K Kq M) as [M1 ->].
    rewrite Cp, Cq. auto.
Qed.

Lemma or_calm_gen' {A} (p q : parser A) ts :
  r_errs (p ts) = [] ->
  forall ep, r_out (p ts) = Err ep -> calm_err (len ts) ep -> l_rem ep = len ts ->
  r_crash (p ts) = [] -> r_crash (q ts) = [] ->
  match r_out (q ts) with
  | Ok _ rest alt => suffix rest ts /\ calm_opt (len ts) alt
  | Err e => calm_err (len ts) e \/ l_rem e + 1 <= len ts
  end ->
  r_crash (p_or p q ts) = [] /\
  match r_out (p_or p q ts) with
  | Ok a rest alt => suffix rest ts /\ calm_opt (len ts) alt
      /\ exists alt0, r_out (q ts) = Ok a rest alt0
  | Err e => calm_err (len ts) e \/ r_out (q ts) = Err e
  end.
Proof.
  intros Ep ep P Kp Lp Cp Cq O.
  destruct (p_or_cases p q ts) as
    [(a & rest & alt & He & Ho & X)
    |[D [(a & rest & alt & alt' & c & Ho & He & M & X)
        |[(a & rest & alt & alt' & c & Ho & M & X)
         |(ea & eb & Ha & Hb & [[X _]|[[X _]|(e & c & M & Le & X)]])]]]];
  rewrite X; cbn [r_crash r_out].
  - congruence.
  - congruence.
  - rewrite Ho in O. rewrite P in M. cbn [branch_alt] in M.
    destruct O as [S0 A0].
    destruct (merge_alts_calm (len ts) alt (Some ep) alt' c A0 Kp M) as [M1 ->].
    rewrite Cp, Cq. eauto 6.
  - rewrite P in Ha. inversion Ha; subst. rewrite Cp, Cq. auto.
  - rewrite Cp, Cq. auto.
  - rewrite P in Ha. inversion Ha; subst. rewrite Hb in O.
    destruct O as [K|L]; [|lia].
    destruct (lmax_calm (len ts) ea eb e c Kp K M) as [M1 ->].
    rewrite Cp, Cq. auto.
Qed.

Lemma prop_or_arg_eq ts : prop_or_arg ts = p_or ignored_item prop_or_arg_inner ts.
Proof. reflexivity. Qed.

Lemma rej_ignored_item : rej (fun c => (c =? 0x2F)%N) ignored_item.
Proof.
  unfold ignored_item. apply rej_map, rej_ignore_then, rej_ignore_then, rej_begin_comment.
Qed.

Lemma prop_or_arg_spec ts : r_crash (prop_or_arg ts) = [] /\
  match r_out (prop_or_arg ts) with
  | Ok _ rest alt => suffix rest ts /\ calm_opt (len ts) alt /\ ns_calm ts
  | Err e => calm_err (len ts) e \/
      exists q, at_after f_dig ts q /\ l_rem e + 3 <= len q
  end.
Proof.
  unfold prop_or_arg. fold ignored_item.
  destruct (inner_spec ts) as [C1 O1]. destruct (ignored_item_spec ts) as [C2 O2].
  destruct (hd (fun c => (c =? 0x2F)%N) ts) eqn:H.
  - pose proof (hd_excl _ _ _ H slash_not_item) as H1.
    destruct (rej_prop_or_arg_inner ts H1) as [e [R M]].
    edestruct (or_calm_gen ignored_item prop_or_arg_inner ts) as [X1 X2].
    + now rewrite R.
    + rewrite R. reflexivity.
    + split; simpl; auto.
    + reflexivity.
    + auto.
    + auto.
    + destruct (r_out (ignored_item ts)); auto.
      destruct O2 as [K|(SL & q & A & L)]; auto. right.
      apply at_after_len in A. lia.
    + split; auto.
      destruct (r_out (p_or ignored_item prop_or_arg_inner ts)) as [a rest alt|e'].
      * destruct X2 as (S0 & A0 & alt0 & X2). repeat split; auto.
        -- apply map_ok in X2 as [y [X2 _]]. apply map_ok in X2 as [z [X2 _]].
           apply bind_ok in X2 as (u & v & w & ? & ? & ? & P & _).
           apply map_ok in P as [y' [P _]].
           apply bind_ok in P as (u' & v' & w' & ? & ? & ? & P & _).
           apply begin_comment_ok in P. apply (sl_excl _ _ _ P). discriminate.
        -- apply (hd_excl _ _ _ H). intros c. lia.
      * destruct X2 as [X2|X2]; auto. rewrite X2 in O2.
        destruct O2 as [K|(SL & q & A & L)]; auto. right. eauto.
  - destruct (rej_ignored_item ts H) as [e [R M]].
    edestruct (or_calm_gen' ignored_item prop_or_arg_inner ts) as [X1 X2].
    + now rewrite R.
    + rewrite R. reflexivity.
    + split; simpl; auto.
    + reflexivity.
    + auto.
    + auto.
    + destruct (r_out (prop_or_arg_inner ts)); auto.
      destruct O1 as [K|(L & H1)]; auto. right. lia.
    + split; auto.
      destruct (r_out (p_or ignored_item prop_or_arg_inner ts)) as [a rest alt|e'].
      * destruct X2 as (S0 & A0 & alt0 & X2).
        apply (rej_no _ _ _ _ _ _ rej_prop_or_arg_inner) in X2.
        repeat split; auto.
        -- now apply sl_hd.
        -- apply (hd_excl _ _ _ X2), item_not_back.
      * destruct X2 as [X2|X2]; auto. rewrite X2 in O1.
        destruct O1 as [K|(L & H1)]; auto. right. exists ts. split; auto.
        split; auto.
Qed.

Lemma eats_prop_or_arg : eats 1 prop_or_arg.
Proof.
  unfold prop_or_arg. apply eats_or; [|auto with safe].
  apply eats_map, (eats_ignore_then 0 1); auto with safe.
  apply eats0, S_prefix.
Qed.

Lemma near_prop_or_arg : near 1 not_eq prop_or_arg.
Proof.
  unfold prop_or_arg. apply near_or.
  - apply near_map, near_ignore_then with (j := 0) (G := ns_calm).
    + apply near_ignore_then with (j := 0) (G := anyp).
      * apply noalt_near, noalt_begin_comment.
      * apply near_node_spaces.
      * apply eats0, S_nss.
      * intros; exact I.
    + apply near_prop_or_arg_inner.
    + eapply eats_le; [apply eats_prop_or_arg_inner|lia].
    + intros b r1 rest alt Q _.
      pose proof (rej_no _ _ _ _ _ _ rej_prop_or_arg_inner Q) as H.
      apply (ns_calm_hd _ _ H). intros c F.
      split; [now apply item_not_slash|now apply item_not_back].
  - apply near_prop_or_arg_inner.
  - intros ts e b rest alt P Q _. fold ignored_item in P.
    pose proof (rej_no _ _ _ _ _ _ rej_prop_or_arg_inner Q) as H.
    pose proof (rej_enear _ _ rej_ignored_item _ _ P
      (hd_excl _ _ _ H item_not_slash)).
    apply eats_prop_or_arg_inner in Q. lia.
  - intros ts a rest alt _ Q. fold ignored_item in Q.
    pose proof (rej_no _ _ _ _ _ _ rej_ignored_item Q) as H.
    destruct (rej_prop_or_arg_inner ts (hd_excl _ _ _ H slash_not_item)) as [e [R _]].
    rewrite R. exists (Located (len ts) e). split; auto. intros _. simpl.
    assert (Z : eats 0 ignored_item).
    { unfold ignored_item. apply eats_map, (eats_ignore_then 0 0).
      - apply eats0, S_prefix.
      - eapply eats_le; [apply eats_prop_or_arg_inner|lia]. }
    apply Z in Q. lia.
Qed.

End NodeSafe.
