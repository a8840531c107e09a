(** No panic in the parsers of nodes and documents: whatever the text, parsing it
    ends with a document or with a list of errors. *)

From Coq Require Import NArith PeanoNat List Bool String Lia ZifyBool Wf_nat.
From Verif Require Import Chars Ast Errors Chumsky Spans Grammar Safe GrammarSafe
  Near GrammarNear NodeSafe.
Import ListNotations.
Local Open Scope list_scope.

Section DocSafe.
Context {Sp : Type} {E : env Sp}.

Notation parser := (parser Sp).
Notation toks := (toks Sp).
Notation located := (located Sp).
Notation len := (@List.length (tok Sp)).

Opaque node_space prop_or_arg prop_or_arg_inner type_name ident node_terminator
  line_space.

Lemma then_ok {A B} (p : parser A) (q : parser B) ts a r1 alt1 b r2 alt2 :
  r_out (p ts) = Ok a r1 alt1 -> r_out (q r1) = Ok b r2 alt2 ->
  r_out (p_then p q ts) = Ok (a, b) r2 (fst (merge_alts alt1 alt2)) /\
  r_crash (p_then p q ts)
    = r_crash (p ts) ++ r_crash (q r1) ++ snd (merge_alts alt1 alt2).
Proof. apply (bind_out_ok p (fun _ => q)). Qed.

Lemma then_err {A B} (p : parser A) (q : parser B) ts a r1 alt1 e :
  r_out (p ts) = Ok a r1 alt1 -> r_out (q r1) = Err e ->
  r_out (p_then p q ts) = Err (fst (lmax_opt e alt1)) /\
  r_crash (p_then p q ts)
    = r_crash (p ts) ++ r_crash (q r1) ++ snd (lmax_opt e alt1).
Proof. apply (bind_out_err p (fun _ => q)). Qed.

Lemma then_err1 {A B} (p : parser A) (q : parser B) ts e :
  r_out (p ts) = Err e ->
  r_out (p_then p q ts) = Err e /\ r_crash (p_then p q ts) = r_crash (p ts).
Proof. apply (bind_out_err1 p (fun _ => q)). Qed.

Lemma then_ignore_out {A B} (p : parser A) (q : parser B) ts :
  p_then_ignore p q ts = p_map fst (p_then p q) ts.
Proof. reflexivity. Qed.
Lemma ignore_then_out {A B} (p : parser A) (q : parser B) ts :
  p_ignore_then p q ts = p_map snd (p_then p q) ts.
Proof. reflexivity. Qed.

Lemma spanned_cases {A} (p : parser A) ts :
  r_crash (p_spanned p ts) = r_crash (p ts) /\
  ((exists a rest alt s, r_out (p ts) = Ok a rest alt
      /\ r_out (p_spanned p ts) = Ok (Spanned s a) rest alt)
   \/ exists e, r_out (p ts) = Err e /\ r_out (p_spanned p ts) = Err e).
Proof.
  unfold p_spanned, p_map_with_span. cbn [r_crash r_out].
  split; auto. destruct (r_out (p ts)); [left|right]; eauto 8.
Qed.

Lemma or_err_rem {A} (p q : parser A) ts e :
  r_out (p_or p q ts) = Err e ->
  exists ea eb, r_out (p ts) = Err ea /\ r_out (q ts) = Err eb
    /\ (l_rem ea <= l_rem e \/ l_rem eb <= l_rem e).
Proof.
  intros R.
  destruct (p_or_cases p q ts) as
    [(a & rest & alt & He & Ho & X)
    |[_ [(a & rest & alt & alt' & c & Ho & He & M & X)
        |[(a & rest & alt & alt' & c & Ho & M & X)
         |(ea & eb & Ha & Hb & [[X _]|[[X _]|(e' & c & M & Le & X)]])]]]];
  rewrite X in R; cbn [r_out] in R; try congruence.
  - exists ea, eb. repeat split; auto. left. inversion R; subst. lia.
  - exists ea, eb. repeat split; auto. right. inversion R; subst. lia.
  - exists ea, eb. repeat split; auto. inversion R; subst.
    apply lmax_rem in M. lia.
Qed.

Lemma choice4_ok {A} (p1 p2 p3 p4 : parser A) (ts : toks) a rest alt :
  r_out (p_choice [p1; p2; p3; p4] ts) = Ok a rest alt ->
  r_out (p1 ts) = Ok a rest alt \/ r_out (p2 ts) = Ok a rest alt
  \/ r_out (p3 ts) = Ok a rest alt \/ r_out (p4 ts) = Ok a rest alt.
Proof.
  unfold p_choice. intros Q. apply choice_from_ok in Q as (p & J & Q & _).
  cbn [In] in J. destruct J as [<-|[<-|[<-|[<-|[]]]]]; auto.
Qed.

Lemma within_le k r r' (o : option located) :
  within k r o -> len r' <= len r -> within k r' o.
Proof. destruct o; simpl; auto. lia. Qed.

(** ** Spaces *)

Lemma repeat_loop_min {A} (p : parser A) : forall fuel am errs outs alt old cr ts,
  outs <> [] ->
  repeat_loop fuel p 1 am errs outs alt old cr ts
  = repeat_loop fuel p 0 am errs outs alt old cr ts.
Proof.
  induction fuel as [|fuel IH]; intros am errs outs alt old cr ts N;
    cbn [repeat_loop]; auto.
  destruct (match am with Some m => m <=? List.length outs | None => false end); auto.
  destruct (r_out (p ts)) as [a rest alt1|e].
  - destruct (merge_alts alt alt1). destruct (match old with Some o => _ | None => _ end);
      auto. apply IH. discriminate.
  - destruct outs; [congruence|]. reflexivity.
Qed.

Lemma repeat1_ok {A} (p : parser A) ts a rest alt : r_out (p ts) = Ok a rest alt ->
  p_repeat 1 None p ts = p_repeated p ts.
Proof.
  intros Q. unfold p_repeated, p_repeat. change (3 + len ts) with (S (2 + len ts)).
  generalize (2 + len ts) as fuel. intros fuel. cbn [repeat_loop]. rewrite Q.
  destruct (merge_alts None alt). apply repeat_loop_min. discriminate.
Qed.

Lemma repeat1_err {A} (p : parser A) ts e : r_out (p ts) = Err e ->
  r_out (p_repeat 1 None p ts) = Err e /\
  r_out (p_repeated p ts) = Ok [] ts (Some e).
Proof.
  intros Q. unfold p_repeated, p_repeat. change (3 + len ts) with (S (2 + len ts)).
  generalize (2 + len ts) as fuel. intros fuel. cbn [repeat_loop]. rewrite Q.
  cbn. auto.
Qed.

Definition nss : parser (list unit) := p_repeated node_space.
Definition ns1 : parser (list unit) := p_repeat 1 None node_space.

Lemma nss_spec ts : r_crash (nss ts) = [] /\ exists a q alt,
  r_out (nss ts) = Ok a q alt /\ suffix q ts /\ calm_opt (len ts) alt /\
  (ns_calm q -> within 1 q alt).
Proof.
  destruct (Safe_out _ ts S_nss) as [C O]. split; auto.
  destruct (repeat0_ok None node_space ts) as (a & q & alt & Q).
  change (p_repeat 0 None node_space) with nss in Q.
  exists a, q, alt. change (p_repeated node_space) with nss in O.
  rewrite Q in O. destruct O. repeat split; auto.
  exact (near_node_spaces _ _ _ _ Q).
Qed.

Lemma ns1_cases ts :
  (exists a q alt, r_out (ns1 ts) = Ok a q alt /\ r_out (nss ts) = Ok a q alt
     /\ hd f_ns ts = true)
  \/ (exists e, r_out (ns1 ts) = Err e /\ r_out (nss ts) = Ok [] ts (Some e)).
Proof.
  unfold ns1, nss. destruct (r_out (node_space ts)) as [a rest alt|e] eqn:Q.
  - left. rewrite (repeat1_ok _ _ _ _ _ Q).
    destruct (nss_spec ts) as (_ & l & q & alt' & R & _). unfold nss in R.
    exists l, q, alt'. repeat split; auto. exact (rej_no _ _ _ _ _ _ rej_node_space Q).
  - right. apply repeat1_err in Q. eauto.
Qed.

(** Where the input goes on after an optional slashdash. *)
Definition after (q0 q : toks) : Prop :=
  (q = q0 /\ sl 0x2D%N q0 = false) \/
  (sl 0x2D%N q0 = true /\ exists a alt, r_out (nss (skipn 2 q0)) = Ok a q alt).

Lemma after_det q0 q q' : after q0 q -> after q0 q' -> q = q'.
Proof.
  intros [[-> S]|[S (a & alt & Q)]] [[-> S']|[S' (a' & alt' & Q')]]; congruence.
Qed.

Lemma after_total q0 : exists q, after q0 q.
Proof.
  destruct (sl 0x2D%N q0) eqn:S.
  - destruct (nss_spec (skipn 2 q0)) as (_ & a & q & alt & Q & _).
    exists q. right. eauto.
  - exists q0. left. auto.
Qed.

Lemma nss_suffix ts a q alt : r_out (nss ts) = Ok a q alt -> suffix q ts.
Proof.
  intros Q. destruct (nss_spec ts) as (_ & a' & q' & alt' & Q' & S & _). congruence.
Qed.

Lemma after_suffix q0 q : after q0 q -> suffix q q0.
Proof.
  intros [[-> S]|[S (a & alt & Q)]]; [apply suffix_refl|].
  apply nss_suffix in Q. eapply suffix_trans; [exact Q|]. apply suffix_skipn.
Qed.

Lemma at_after_after f ts q : at_after f ts q ->
  (forall c, f c = true -> (c =? 0x2F)%N = false) -> after ts q.
Proof.
  intros [H [->|[S X]]] N.
  - left. split; auto. apply sl_hd, (hd_excl _ _ _ H N).
  - right. split; auto.
Qed.

(** ** Items *)

Definition item_ : parser prop_or_arg_t := p_ignore_then ns1 prop_or_arg.

Lemma item_spec ts : r_crash (item_ ts) = [] /\
  match r_out (item_ ts) with
  | Ok _ rest alt => suffix rest ts /\ calm_opt (len ts) alt
      /\ (not_eq rest -> within 1 rest alt)
  | Err e => calm_err (len ts) e \/
      exists a q0 alt q, r_out (nss ts) = Ok a q0 alt /\ hd f_ns ts = true
        /\ after q0 q /\ hd f_dig q = true /\ ns_calm q0 /\ l_rem e + 3 <= len q
  end.
Proof.
  unfold item_. rewrite ignore_then_out, map_crash, map_out.
  pose proof (Safe_out _ ts S_nss1) as [C O].
  change (p_repeat 1 None node_space) with ns1 in C, O.
  destruct (ns1_cases ts) as [(a & q0 & alt & Q & R & F)|(e & Q & R)].
  - rewrite Q in O. destruct O as [S1 A1]. pose proof (suffix_len _ _ S1) as L1.
    destruct (prop_or_arg_spec q0) as [C2 O2].
    destruct (r_out (prop_or_arg q0)) as [b r2 alt2|e2] eqn:P.
    + destruct O2 as (S2 & A2 & NC).
      destruct (then_ok ns1 prop_or_arg ts _ _ _ _ _ _ Q P) as [X1 X2].
      destruct (merge_calm (len ts) alt alt2 A1) as [M1 M2].
      { eapply calm_le; eauto. }
      rewrite X1, X2, C, C2, M2. repeat split; auto.
      * eapply suffix_trans; eauto.
      * intros NE. apply mergeo_within.
        -- pose proof (near_node_spaces1 _ _ _ _ Q NC) as W.
           eapply within_le; [exact W|]. now apply suffix_len.
        -- exact (near_prop_or_arg _ _ _ _ P NE).
    + destruct (then_err ns1 prop_or_arg ts _ _ _ _ Q P) as [X1 X2].
      rewrite X1, X2, C, C2.
      destruct O2 as [K|(q & A & L)].
      * destruct (lmaxo_calm (len ts) e2 alt) as [M1 M2]; auto.
        { eapply calm_weaken; eauto. }
      * assert (D : forall c, f_dig c = true -> (c =? 0x2F)%N = false
                       /\ (c =? 0x5C)%N = false).
        { intros c D. apply dig_cases in D. lia. }
        pose proof (at_after_calm _ _ _ A D) as NC.
        pose proof (at_after_len _ _ _ A) as L2.
        pose proof (near_node_spaces1 _ _ _ _ Q NC) as W.
        rewrite (lmaxo_far_l 1 q0 alt e2 W) by lia. cbn [fst snd]. split; auto.
        right. exists a, q0, alt, q. repeat split; auto; try apply NC.
        -- apply (at_after_after _ _ _ A). intros c F'. now apply D.
        -- apply A.
  - destruct (then_err1 ns1 prop_or_arg ts _ Q) as [X1 X2].
    rewrite Q in O. rewrite X1, X2, C. auto.
Qed.

Lemma eats_item : eats 1 item_.
Proof.
  unfold item_. apply (eats_ignore_then 0 1); [|apply eats_prop_or_arg].
  apply eats0, S_nss1.
Qed.

Definition stop (q0 q : toks) : Prop :=
  after q0 q /\ hd f_item q = false /\ ns_calm q.

Lemma stop_calm0 q0 q : stop q0 q -> ns_calm q0.
Proof.
  intros [[[-> S]|[S _]] [H N]]; auto. apply (ns_calm_sl _ _ S). discriminate.
Qed.

Lemma poa_stop q0 q e : r_out (prop_or_arg q0) = Err e -> stop q0 q ->
  len q <= l_rem e + 1.
Proof.
  rewrite prop_or_arg_eq. intros Q St.
  pose proof (suffix_len _ _ (after_suffix _ _ (proj1 St))) as L.
  apply or_err_rem in Q as (ea & eb & Qa & Qb & Le).
  enough (len q <= l_rem ea + 1 /\ len q <= l_rem eb + 1) by lia.
  destruct St as [A [H N]]. split.
  - unfold ignored_item in Qa. apply map_err_inv, map_err_inv in Qa.
    apply bind_err in Qa as [Qa|(a & r1 & alt & e2 & c & Q1 & Q2 & M)].
    + apply map_err_inv in Qa.
      apply bind_err in Qa as [Qa|(a & r1 & alt & e2 & c & Q1 & Q2 & M)].
      * pose proof (enear_begin_comment _ anyp _ _ Qa I). lia.
      * destruct (nss_spec r1) as (_ & x & y & z & X & _). unfold nss in X.
        rewrite X in Q2. discriminate.
    + apply prefix_inv in Q1 as [SL Q1].
      change (p_repeated node_space) with nss in Q1.
      assert (A' : after q0 r1) by (right; eauto).
      rewrite (after_det _ _ _ A A') in *.
      pose proof (rej_enear _ _ rej_prop_or_arg_inner _ _ Q2 H) as L2.
      pose proof (near_node_spaces _ _ _ _ Q1 N) as W.
      pose proof (lmaxo_rem e2 alt 1 r1) as Z. rewrite M in Z. cbn [fst] in Z.
      apply Z; auto. lia.
  - assert (H0 : hd f_item q0 = false).
    { destruct A as [[-> S]|[S _]]; auto.
      apply (hd_excl _ _ _ (sl_minus_hd _ S)). apply slash_not_item. }
    pose proof (rej_enear _ _ rej_prop_or_arg_inner _ _ Qb H0). lia.
Qed.

Lemma item_stop ts a q0 alt q e : r_out (item_ ts) = Err e ->
  r_out (nss ts) = Ok a q0 alt -> stop q0 q -> len q <= l_rem e + 1.
Proof.
  intros Q R St. pose proof (stop_calm0 _ _ St) as N.
  pose proof (suffix_len _ _ (after_suffix _ _ (proj1 St))) as L.
  apply map_err_inv in Q.
  apply bind_err in Q as [Q|(b & r1 & alt1 & e2 & c & Q1 & Q2 & M)].
  - destruct (ns1_cases ts) as [(x & y & z & Q' & _)|(e' & Q' & R')]; [congruence|].
    assert (q0 = ts) as -> by congruence. assert (e' = e) as -> by congruence.
    pose proof (near_node_spaces _ _ _ _ R' N) as W. cbn [within] in W. lia.
  - destruct (ns1_cases ts) as [(x & y & z & Q' & R' & _)|(e' & Q' & _)]; [|congruence].
    assert (r1 = q0) as -> by congruence.
    assert (z = alt1) as -> by congruence. assert (y = q0) as -> by congruence.
    pose proof (near_node_spaces _ _ _ _ R' N) as W.
    pose proof (poa_stop _ _ _ Q2 St).
    pose proof (lmaxo_rem e2 alt1 1 q) as Z. rewrite M in Z. cbn [fst] in Z.
    apply Z; auto. eapply within_le; [exact W|lia].
Qed.

Lemma mergeo_min (o : option located) (e m : located) :
  fst (merge_alts o (Some e)) = Some m ->
  l_rem e <= l_rem m \/ exists b, o = Some b /\ l_rem b <= l_rem m.
Proof.
  destruct o as [b|]; cbn [merge_alts].
  - destruct (lmax e b) as [x c] eqn:M. cbn [fst]. intros [= ->].
    apply lmax_rem in M. destruct (Nat.le_gt_cases (l_rem e) (l_rem m)); auto.
    right. exists b. split; auto. lia.
  - cbn [fst]. intros [= ->]. auto.
Qed.

Lemma items_loop {A} (item : parser A) :
  (forall ts, r_crash (item ts) = []) -> eats 1 item ->
  (forall ts a rest alt, r_out (item ts) = Ok a rest alt ->
     not_eq ts /\ suffix rest ts /\ calm_opt (len ts) alt
     /\ (not_eq rest -> within 1 rest alt)) ->
  (forall ts e, r_out (item ts) = Err e ->
     calm_err (len ts) e \/ (l_rem e + 2 <= len ts /\ not_eq ts)) ->
  forall fuel errs outs alt old ts ts0,
  suffix ts ts0 -> calm_opt (len ts0) alt -> (not_eq ts -> within 1 ts alt) ->
  (forall o, old = Some o -> o = len ts) -> 2 + len ts <= fuel ->
  r_crash (repeat_loop fuel item 0 None errs outs alt old [] ts) = [] /\
  exists l rest alt' e,
    r_out (repeat_loop fuel item 0 None errs outs alt old [] ts) = Ok l rest alt'
    /\ suffix rest ts0 /\ r_out (item rest) = Err e
    /\ ((calm_err (len rest) e /\ calm_opt (len ts0) alt')
        \/ (alt' = Some e /\ l_rem e + 2 <= len rest /\ not_eq rest))
    /\ (not_eq rest -> forall a, alt' = Some a ->
         len rest <= l_rem a + 1 \/ l_rem e <= l_rem a).
Proof.
  intros Hc Ht Ho Hf.
  induction fuel as [|fuel IH]; intros errs outs alt old ts ts0 S0 Ca W Hold F; [lia|].
  cbn [repeat_loop].
  pose proof (suffix_len _ _ S0) as L0.
  destruct (r_out (item ts)) as [a rest alt1|e] eqn:Q.
  - destruct (Ho _ _ _ _ Q) as (N0 & S1 & A1 & N1). pose proof (Ht _ _ _ _ Q) as L1.
    destruct (merge_calm (len ts0) alt alt1 Ca) as [M1 M2].
    { eapply calm_le; eauto. }
    destruct (merge_alts alt alt1) as [m c] eqn:M. cbn [fst snd] in M1, M2. subst c.
    destruct (match old with Some o => o =? len rest | None => false end) eqn:NP.
    { destruct old as [o|]; [|discriminate]. apply Nat.eqb_eq in NP.
      specialize (Hold o eq_refl). lia. }
    rewrite Hc. cbn [app]. apply IH; auto; try lia.
    + eapply suffix_trans; eauto.
    + intros NE. pose proof (mergeo_within 1 rest alt alt1) as Z. rewrite M in Z.
      cbn [fst] in Z. apply Z; auto.
      eapply within_le; [exact (W N0)|lia].
    + now intros o [= <-].
  - cbn [Nat.ltb Nat.leb]. replace (List.length outs <? 0) with false
      by (symmetry; apply Nat.ltb_ge; lia).
    rewrite Hc. destruct (Hf _ _ Q) as [K|[L NE]].
    + destruct (merge_calm (len ts0) alt (Some e) Ca) as [M1 M2].
      { eapply calm_weaken; eauto. }
      pose proof (mergeo_min alt e) as Mm.
      destruct (merge_alts alt (Some e)) as [m c]. cbn [fst snd] in *. subst c.
      cbn [r_crash r_out app]. split; auto. exists (rev outs), ts, m, e.
      repeat split; auto. intros NE a ->. specialize (Mm a eq_refl).
      destruct Mm as [Mm|(b & -> & Mm)]; [right; lia|]. left.
      specialize (W NE). cbn [within] in W. lia.
    + rewrite (merge_far_r 1 ts alt e) by (auto; lia). cbn [r_crash r_out app].
      split; auto. exists (rev outs), ts, (Some e), e. repeat split; auto.
      intros _ a [= ->]. right. lia.
Qed.

Lemma not_eq_hd f ts : hd f ts = true -> f 0x3D%N = false -> not_eq (ts : toks).
Proof.
  intros H N. apply (hd_excl _ _ _ H). intros c F. apply N.eqb_neq. congruence.
Qed.

Definition item_far (ts : toks) (e : located) : Prop :=
  exists a q0 alt q, r_out (nss ts) = Ok a q0 alt /\ hd f_ns ts = true
    /\ after q0 q /\ hd f_dig q = true /\ ns_calm q0 /\ l_rem e + 3 <= len q.

Lemma node_items_spec ts : r_crash (node_items ts) = [] /\
  exists l rest alt e, r_out (node_items ts) = Ok l rest alt
    /\ suffix rest ts /\ r_out (item_ rest) = Err e
    /\ ((calm_err (len rest) e /\ calm_opt (len ts) alt)
        \/ (alt = Some e /\ item_far rest e))
    /\ (not_eq rest -> forall a, alt = Some a ->
         len rest <= l_rem a + 1 \/ l_rem e <= l_rem a).
Proof.
  change (@node_items Sp E) with (p_repeated item_). unfold p_repeated, p_repeat.
  assert (FN : forall ts, hd f_ns ts = true -> not_eq (ts : toks)).
  { intros u F. now apply (not_eq_hd _ _ F). }
  destruct (items_loop item_ (fun ts => proj1 (item_spec ts)) eats_item) with
    (fuel := 3 + len ts) (errs := @nil located) (outs := @nil (@prop_or_arg_t Sp))
    (alt := @None located) (old := @None nat) (ts := ts) (ts0 := ts)
    as (C & l & rest & alt & e & Q & S1 & Qe & D & N).
  - intros u a rest alt Q. destruct (item_spec u) as [_ O]. rewrite Q in O.
    split; auto. apply map_ok in Q as [x [Q _]].
    apply bind_ok in Q as (? & ? & ? & ? & ? & ? & Q & _).
    destruct (ns1_cases u) as [(y & z & w & _ & _ & F)|(e & Q' & _)]; [auto|].
    congruence.
  - intros u e Q. destruct (item_spec u) as [_ O]. rewrite Q in O.
    destruct O as [K|(a & q0 & alt & q & R & F & A & H & NC & L)]; auto. right.
    split; auto. apply after_suffix, suffix_len in A.
    apply nss_suffix, suffix_len in R. lia.
  - apply suffix_refl.
  - exact I.
  - intros _. exact I.
  - discriminate.
  - lia.
  - split; auto. exists l, rest, alt, e. repeat split; auto.
    destruct D as [D|(-> & L & NE)]; auto.
    destruct (item_spec rest) as [_ O]. rewrite Qe in O.
    destruct O as [K|O]; auto. left. split; auto. cbn [calm_opt].
    eapply calm_weaken; [exact K|]. now apply suffix_len.
Qed.

(** ** Children *)

Definition nodes_spec (n : nat) (nodes : parser (list (snode Sp))) : Prop :=
  forall ts, len ts < n -> r_crash (nodes ts) = [] /\
  exists l rest alt, r_out (nodes ts) = Ok l rest alt /\ suffix rest ts
    /\ (calm_opt (len ts) alt \/
        exists e, alt = Some e /\ l_rem e + 2 <= len rest
          /\ hd (fun c => (c =? 0x7D)%N) rest = false)
    /\ (hd (fun c => (c =? 0x7D)%N) rest = true -> within 1 rest alt).

Lemma map_err_span_cases {A} f (p : parser A) ts :
  (exists a rest alt, r_out (p ts) = Ok a rest alt
     /\ p_map_err_with_span f p ts = p ts)
  \/ (exists e s, r_out (p ts) = Err e /\
      (forall e', f (l_err e) s = Some e' ->
        r_out (p_map_err_with_span f p ts) = Err (Located (l_rem e) e')
        /\ r_crash (p_map_err_with_span f p ts) = r_crash (p ts))).
Proof.
  unfold p_map_err_with_span. destruct (r_out (p ts)) as [a rest alt|e] eqn:Q.
  - left. eauto 6.
  - right. eexists e, _. split; auto. intros e' X. rewrite X.
    unfold add_crash. cbn [r_out r_crash]. split; auto.
Qed.

Lemma just_cases x ts :
  (exists s r, ts = (x, s) :: r /\ @p_just Sp E x ts = Res [] (Ok x r None) [])
  \/ (hd (fun c => (c =? x)%N) ts = false /\
      exists e, @p_just Sp E x ts = Res [] (Err e) [] /\ l_rem e = len ts
        /\ mergeable (l_err e)).
Proof.
  destruct ts as [|[c s] r].
  - right. split; auto. eexists. repeat split.
  - unfold p_just. cbn [hd]. destruct (N.eqb c x) eqn:H.
    + apply N.eqb_eq in H. subst. left. eauto.
    + right. split; auto. eexists. repeat split.
Qed.

Lemma braces_body n nodes ts : nodes_spec n nodes -> len ts < n ->
  r_crash (p_then_ignore nodes (p_just 0x7D%N) ts) = [] /\
  match r_out (p_then_ignore nodes (p_just 0x7D%N) ts) with
  | Ok _ rest alt => suffix rest ts /\ len rest + 1 <= len ts
      /\ calm_opt (len ts) alt /\ within 0 rest alt
  | Err e => calm_err (len ts) e \/ l_rem e + 2 <= len ts
  end.
Proof.
  intros Hn L. destruct (Hn ts L) as (C & l & rest & alt & Q & S1 & D & N).
  pose proof (suffix_len _ _ S1) as L1.
  rewrite then_ignore_out, map_crash, map_out.
  destruct (just_cases 0x7D%N rest) as [(s & r & -> & J)|(H & e & J & Je & Jm)].
  - pose proof (f_equal (@r_out _ _) J) as J1. cbn [r_out] in J1.
    destruct (then_ok nodes (p_just 0x7D%N) ts _ _ _ _ _ _ Q J1) as [X1 X2].
    assert (ME : merge_alts alt None = (alt, [])) by now destruct alt.
    rewrite X1, X2, ME, C, J. cbn [fst snd r_crash app]. split; auto.
    cbn [List.length] in *. split; [|split; [lia|]].
    + eapply suffix_tail; eauto.
    + split.
      * destruct D as [D|(e & -> & D & H)]; auto. discriminate H.
      * eapply within_shift; [apply N; reflexivity|]. cbn [List.length]. lia.
  - assert (J1 : r_out (p_just 0x7D%N rest) = Err e) by now rewrite J.
    destruct (then_err nodes (p_just 0x7D%N) ts _ _ _ _ Q J1) as [X1 X2].
    rewrite X1, X2, C, J. cbn [r_crash app].
    destruct D as [D|(e1 & -> & D & _)].
    + destruct (lmaxo_calm (len ts) e alt) as [M1 M2]; auto.
      split; auto. lia.
    + rewrite (lmaxo_far_r 0 rest e e1) by lia. cbn [fst snd]. split; auto.
      right. lia.
Qed.

Lemma braces_err_some e s : exists e', @braces_err Sp E e s = Some e' /\
  (mergeable e -> mergeable e').
Proof.
  unfold braces_err. destruct (is_eoi_error e) eqn:H; [|eauto].
  destruct e; try discriminate. cbn [merge]. eexists. split; [reflexivity|].
  intros _. exact I.
Qed.

Lemma braced_spec n nodes ts : nodes_spec n nodes -> len ts <= n ->
  r_crash (braced_nodes nodes ts) = [] /\
  match r_out (braced_nodes nodes ts) with
  | Ok _ rest alt => hd (fun c => (c =? 0x7B)%N) ts = true /\ suffix rest ts
      /\ len rest + 2 <= len ts /\ calm_opt (len ts) alt /\ within 0 rest alt
  | Err e => calm_err (len ts) e /\
       (hd (fun c => (c =? 0x7B)%N) ts = false -> l_rem e = len ts)
     \/ (hd (fun c => (c =? 0x7B)%N) ts = true /\ l_rem e + 3 <= len ts)
  end.
Proof.
  intros Hn L. unfold braced_nodes. rewrite ignore_then_out, map_crash, map_out.
  set (body := p_map_err_with_span braces_err (p_then_ignore nodes (p_just 0x7D%N))).
  destruct (just_cases 0x7B%N ts) as [(s & r & -> & J)|(H & e & J & Je & Jm)].
  - pose proof (f_equal (@r_out _ _) J) as J1. cbn [r_out] in J1.
    cbn [List.length] in L. assert (Lr : len r < n) by lia.
    destruct (braces_body n nodes r Hn Lr) as [C O].
    destruct (map_err_span_cases braces_err (p_then_ignore nodes (p_just 0x7D%N)) r)
      as [(a & rest & alt & Q & X)|(e & sp & Q & X)].
    + fold body in X. rewrite Q in O. rewrite <- X in Q, C.
      destruct (then_ok (p_just 0x7B%N) body _ _ _ _ _ _ _ J1 Q) as [X1 X2].
      assert (ME : merge_alts None alt = (alt, [])) by now destruct alt.
      rewrite X1, X2, ME, C, J. cbn [fst snd r_crash app]. split; auto.
      destruct O as (S1 & L1 & A1 & W1). cbn [List.length]. repeat split; auto.
      * now apply suffix_cons.
      * lia.
      * eapply calm_le; eauto.
    + fold body in X. destruct (braces_err_some (l_err e) sp) as (e' & Y & Mg).
      destruct (X _ Y) as [X1 X2]. rewrite Q in O.
      destruct (then_err (p_just 0x7B%N) body _ _ _ _ _ J1 X1) as [Z1 Z2].
      rewrite Z1, Z2, X2, C, J. cbn [lmax_opt fst snd r_crash app]. split; auto.
      cbn [List.length hd l_rem]. rewrite N.eqb_refl.
      destruct O as [[M K]|O]; [left|right].
      * split; [|discriminate]. split; cbn [l_err l_rem]; auto; lia.
      * split; auto. lia.
  - assert (J1 : r_out (p_just 0x7B%N ts) = Err e) by now rewrite J.
    destruct (then_err1 (p_just 0x7B%N) body _ _ J1) as [X1 X2].
    rewrite X1, X2, J. cbn [r_crash]. split; auto. left. split; auto.
    split; auto. lia.
Qed.

Definition pre2 : parser (option unit) := p_ignore_then nss slashdash.

Lemma slashdash_spec q0 : r_crash (slashdash q0) = [] /\
  exists o q alt, r_out (slashdash q0) = Ok o q alt /\ after q0 q
    /\ calm_opt (len q0) alt /\ (ns_calm q -> within 1 q alt).
Proof.
  unfold slashdash.
  set (pre := p_then_ignore (begin_comment 0x2D%N) (p_repeated node_space)).
  destruct (or_not_cases pre q0) as [C X]. rewrite C.
  assert (SP : Safe pre) by (apply S_then_ignore; auto with safe).
  destruct (Safe_out _ q0 SP) as [C1 O]. split; auto.
  destruct (sl 0x2D%N q0) eqn:SL.
  - destruct (nss_spec (skipn 2 q0)) as (_ & a & q & alt & Q & _ & _ & W).
    assert (R : r_out (pre q0) = Ok tt q alt).
    { unfold pre. rewrite then_ignore_out, map_out.
      assert (B : r_out (begin_comment 0x2D%N q0) = Ok tt (skipn 2 q0) None)
        by now rewrite begin_comment_yes.
      destruct (then_ok (begin_comment 0x2D%N) nss _ _ _ _ _ _ _ B Q) as [X1 _].
      unfold nss in X1. rewrite X1. cbn [merge_alts fst]. now destruct alt. }
    rewrite R in O. destruct O as [_ O].
    destruct X as [(x & rest & al & Q1 & Q2)|(e & Q1 & _)]; [|congruence].
    assert (rest = q) as -> by congruence. assert (al = alt) as -> by congruence.
    exists (Some x), q, alt. repeat split; auto. right. eauto.
  - destruct (begin_comment_no _ _ SL) as (e & B & M & Le).
    assert (B1 : r_out (begin_comment 0x2D%N q0) = Err e) by now rewrite B.
    assert (R : r_out (pre q0) = Err e).
    { unfold pre. rewrite then_ignore_out, map_out.
      destruct (then_err1 _ (p_repeated node_space) _ _ B1) as [X1 _]. now rewrite X1. }
    rewrite R in O.
    destruct X as [(x & rest & al & Q1 & Q2)|(e' & Q1 & Q2)]; [congruence|].
    assert (e' = e) as -> by congruence.
    exists None, q0, (Some e). repeat split; auto; try apply O.
    + left. auto.
    + intros _. cbn [within].
      pose proof (enear_begin_comment _ anyp _ _ B1 I). lia.
Qed.

Lemma pre2_spec ts : r_crash (pre2 ts) = [] /\
  exists o a0 q0 al0 q alt, r_out (nss ts) = Ok a0 q0 al0
    /\ r_out (pre2 ts) = Ok o q alt /\ after q0 q
    /\ calm_opt (len ts) alt /\ (ns_calm q -> within 1 q alt).
Proof.
  destruct (nss_spec ts) as (C & a0 & q0 & al0 & Q & S0 & A0 & W0).
  destruct (slashdash_spec q0) as (C1 & o & q & alt & R & Af & A1 & W1).
  pose proof (suffix_len _ _ S0) as L0.
  unfold pre2. rewrite ignore_then_out, map_crash, map_out.
  destruct (then_ok nss slashdash ts _ _ _ _ _ _ Q R) as [X1 X2].
  destruct (merge_calm (len ts) al0 alt A0) as [M1 M2].
  { eapply calm_le; eauto. }
  rewrite X1, X2, C, C1, M2. split; auto.
  exists o, a0, q0, al0, q, (fst (merge_alts al0 alt)). repeat split; auto.
  intros NC. apply mergeo_within; auto.
  pose proof (suffix_len _ _ (after_suffix _ _ Af)) as L.
  eapply within_le; [apply W0|exact L].
  destruct Af as [[-> _]|[S _]]; auto. apply (ns_calm_sl _ _ S). discriminate.
Qed.

Lemma brace_calm ts : hd (fun c => (c =? 0x7B)%N) ts = true -> ns_calm (ts : toks).
Proof. intros H. apply (ns_calm_hd _ _ H). intros c X. lia. Qed.

Lemma children_spec n nodes ts : nodes_spec n nodes -> len ts <= n ->
  r_crash (opt_children nodes ts) = [] /\
  exists a0 q0 al0 q, r_out (nss ts) = Ok a0 q0 al0 /\ after q0 q /\
  ((exists x rest alt, r_out (opt_children nodes ts) = Ok (Some x) rest alt
      /\ hd (fun c => (c =? 0x7B)%N) q = true /\ suffix rest ts
      /\ len rest + 2 <= len q /\ calm_opt (len ts) alt /\ within 0 rest alt)
   \/ (exists e, r_out (opt_children nodes ts) = Ok None ts (Some e) /\
        ((calm_err (len ts) e /\
          (hd (fun c => (c =? 0x7B)%N) q = false -> ns_calm q -> len q <= l_rem e + 1))
         \/ (hd (fun c => (c =? 0x7B)%N) q = true /\ l_rem e + 3 <= len q)))).
Proof.
  intros Hn L. unfold opt_children. fold nss. fold pre2.
  destruct (pre2_spec ts) as (C & o & a0 & q0 & al0 & q & alt & Q & R & Af & A1 & W1).
  pose proof (suffix_trans _ _ _ (after_suffix _ _ Af) (nss_suffix _ _ _ _ Q)) as Sq.
  pose proof (suffix_len _ _ Sq) as Lq. assert (Lq' : len q <= n) by lia.
  destruct (or_not_cases (p_then pre2 (p_spanned (braced_nodes nodes))) ts) as [C0 X].
  rewrite C0.
  destruct (braced_spec n nodes q Hn Lq') as [Cb Ob].
  destruct (spanned_cases (braced_nodes nodes) q)
    as [Cs [(b & rest & alt2 & sp & Q1 & Q2)|(e & Q1 & Q2)]]; rewrite Q1 in Ob.
  - destruct (then_ok _ _ _ _ _ _ _ _ _ R Q2) as [X1 X2].
    destruct Ob as (H & S2 & L2 & A2 & W2).
    destruct (merge_calm (len ts) alt alt2 A1) as [M1 M2].
    { eapply calm_le; eauto. }
    rewrite X2, C, Cs, Cb, M2. split; auto.
    exists a0, q0, al0, q. split; auto. split; auto. left.
    destruct X as [(x & r & al & Y1 & Y2)|(e & Y1 & Y2)]; [|congruence].
    assert (r = rest) as -> by congruence.
    assert (al = fst (merge_alts alt alt2)) as -> by congruence.
    exists x, rest, (fst (merge_alts alt alt2)). repeat split; auto.
    + eapply suffix_trans; eauto.
    + apply mergeo_within; auto. eapply within_shift; [apply W1, brace_calm, H|lia].
  - destruct (then_err _ _ _ _ _ _ _ R Q2) as [X1 X2].
    destruct X as [(x & r & al & Y1 & Y2)|(e' & Y1 & Y2)]; [congruence|].
    assert (e' = fst (lmax_opt e alt)) as -> by congruence.
    rewrite X2, C, Cs, Cb. cbn [app].
    destruct Ob as [[K N]|[H K]].
    + destruct (lmaxo_calm (len ts) e alt) as [M1 M2]; auto.
      { eapply calm_weaken; eauto. }
      split; auto. exists a0, q0, al0, q. split; auto. split; auto. right.
      exists (fst (lmax_opt e alt)). split; auto. left. split; auto.
      intros H NC. apply lmaxo_rem; auto. specialize (N H). lia.
    + rewrite (lmaxo_far_l 1 q alt e) by (auto using brace_calm; lia).
      rewrite (lmaxo_far_l 1 q alt e) in Y2 by (auto using brace_calm; lia).
      cbn [fst snd] in *. split; auto.
      exists a0, q0, al0, q. split; auto. split; auto. right. exists e. auto.
Qed.

(** ** The end of a node *)

Definition termhead (q : toks) : Prop :=
  hd f_item q = false /\ sl 0x2D%N q = false /\ ns_calm q /\ not_eq q
  /\ hd (fun c => (c =? 0x7B)%N) q = false.

Lemma termhead_stop q : termhead q -> stop q q.
Proof. intros (H & S & N & _). split; auto. left. auto. Qed.

Lemma termhead_hd f q : hd f q = true ->
  (forall c, f c = true -> f_item c = false /\ (c =? 0x2F)%N = false
     /\ (c =? 0x5C)%N = false /\ (c =? 0x3D)%N = false /\ (c =? 0x7B)%N = false) ->
  termhead q.
Proof.
  intros H X. repeat split.
  - apply (hd_excl _ _ _ H). apply X.
  - apply sl_hd, (hd_excl _ _ _ H). apply X.
  - apply sl_hd, (hd_excl _ _ _ H). apply X.
  - apply (hd_excl _ _ _ H). apply X.
  - apply (hd_excl _ _ _ H). apply X.
  - apply (hd_excl _ _ _ H). apply X.
Qed.

Transparent node_terminator.

Definition term_end (q rest : toks) (alt : option located) : Prop :=
  termhead q /\ ((q = [] /\ rest = []) \/ len rest + 1 <= len q) /\ within 0 rest alt.

Lemma nl_end q x rest alt : r_out (newline q) = Ok x rest alt -> term_end q rest alt.
Proof.
  intros Q. split; [|split].
  - pose proof (rej_no _ _ _ _ _ _ rej_newline Q) as H.
    apply (termhead_hd _ _ H). intros c X. unfold is_nl in X.
    repeat (apply orb_prop in X as [X|X]); apply N.eqb_eq in X; subst;
      repeat split; reflexivity.
  - right. exact (eats_newline _ _ _ _ Q).
  - exact (near_newline _ _ _ _ Q I).
Qed.

Lemma comment_end q x rest alt : r_out (comment q) = Ok x rest alt -> term_end q rest alt.
Proof.
  intros Q. pose proof (comment_ok_sl _ _ _ _ Q) as SL. split; [|split].
  - assert (H : hd (fun c => (c =? 0x2F)%N) q = true).
    { destruct q as [|[a s] [|[b s'] q]]; try discriminate. cbn [sl hd] in *. lia. }
    repeat split.
    + apply (hd_excl _ _ _ H), slash_not_item.
    + apply (sl_excl _ _ _ SL). discriminate.
    + apply (sl_excl _ _ _ SL). discriminate.
    + apply (hd_excl _ _ _ H). intros c. lia.
    + apply (hd_excl _ _ _ H). intros c. lia.
    + apply (hd_excl _ _ _ H). intros c. lia.
  - right. exact (eats_comment _ _ _ _ Q).
  - exact (near_comment _ _ _ _ Q I).
Qed.

Lemma semi_end q x rest alt : r_out (p_ignored (p_just 0x3B%N) q) = Ok x rest alt ->
  term_end q rest alt.
Proof.
  intros Q. apply map_ok in Q as [y [Q _]]. split; [|split].
  - pose proof (rej_no _ _ _ _ _ _ (rej_just 0x3B%N) Q) as H.
    apply (termhead_hd _ _ H). intros c X. apply N.eqb_eq in X. subst.
    repeat split; reflexivity.
  - right. exact (eats_just _ _ _ _ _ Q).
  - pose proof (noalt_just _ _ _ _ _ Q) as ->. exact I.
Qed.

Lemma eof_end q x rest alt : r_out (p_end q) = Ok x rest alt -> term_end q rest alt.
Proof.
  destruct q as [|[c s] q]; [|discriminate].
  cbn. intros Q. inversion Q; subst. split; [|split]; auto.
  - repeat split; reflexivity.
  - exact I.
Qed.

Lemma node_terminator_eq : @node_terminator Sp E =
  p_choice [ newline; comment; p_ignored (p_just 0x3B%N); p_end ].
Proof. reflexivity. Qed.

Lemma term_ok q x rest alt : r_out (node_terminator q) = Ok x rest alt ->
  term_end q rest alt.
Proof.
  rewrite node_terminator_eq. intros Q. apply choice4_ok in Q as [Q|[Q|[Q|Q]]].
  - exact (nl_end _ _ _ _ Q).
  - exact (comment_end _ _ _ _ Q).
  - exact (semi_end _ _ _ _ Q).
  - exact (eof_end _ _ _ _ Q).
Qed.

Lemma enear_terminator : enear 1 anyp node_terminator.
Proof.
  unfold node_terminator. apply enear_choice. foralls.
  - apply enear_newline.
  - apply enear_comment.
  - apply enear_map, enear_up, enear_just.
  - intros [|[c s] ts] e Q _; [discriminate Q|]. cbn in Q. inversion Q; subst.
    cbn. lia.
Qed.

Opaque node_terminator.


Definition node_end : parser (list unit * unit) := p_then nss node_terminator.

Lemma node_end_spec ts : r_crash (node_end ts) = [] /\
  exists a0 q0 al0, r_out (nss ts) = Ok a0 q0 al0 /\
  match r_out (node_end ts) with
  | Ok _ rest alt => termhead q0 /\ suffix rest ts
      /\ ((q0 = [] /\ rest = []) \/ len rest + 1 <= len q0)
      /\ calm_opt (len ts) alt /\ within 0 rest alt
  | Err e => calm_err (len ts) e /\ (ns_calm q0 -> len q0 <= l_rem e + 1)
  end.
Proof.
  destruct (nss_spec ts) as (C & a0 & q0 & al0 & Q & S0 & A0 & W0).
  pose proof (suffix_len _ _ S0) as L0.
  destruct (Safe_out _ q0 S_node_terminator) as [C1 O].
  unfold node_end.
  destruct (r_out (node_terminator q0)) as [x rest alt|e] eqn:R.
  - destruct O as [S1 A1]. destruct (term_ok _ _ _ _ R) as (H & L & W).
    destruct (then_ok nss node_terminator ts _ _ _ _ _ _ Q R) as [X1 X2].
    destruct (merge_calm (len ts) al0 alt A0) as [M1 M2].
    { eapply calm_le; eauto. }
    rewrite X1, X2, C, C1, M2. split; auto. exists a0, q0, al0. split; auto.
    split; auto. split; [eapply suffix_trans; eauto|]. repeat split; auto.
    apply mergeo_within; auto.
    assert (W1 : within 1 q0 al0) by apply W0, H.
    destruct L as [[-> ->]|L].
    + destruct al0; cbn [within List.length] in *; auto. lia.
    + eapply within_shift; [exact W1|lia].
  - destruct (then_err nss node_terminator ts _ _ _ _ Q R) as [X1 X2].
    destruct (lmaxo_calm (len ts) e al0) as [M1 M2]; auto.
    { eapply calm_weaken; eauto. }
    rewrite X1, X2, C, C1, M2. split; auto. exists a0, q0, al0. split; auto.
    split; auto. intros N. apply lmaxo_rem; auto.
    exact (enear_terminator _ _ R I).
Qed.

(** ** Nodes *)

Definition node_head : parser (option (spanned typename Sp) * spanned text Sp) :=
  p_then (p_or_not (p_spanned type_name)) (p_spanned ident).

Definition f_head (c : char) : bool := f_ident c || (c =? 0x28)%N.

Lemma rej_node_head : rej f_head node_head.
Proof.
  unfold node_head, f_head. eapply rej_weaken.
  - apply rej_opt_then.
    + apply rej_spanned, rej_type_name.
    + apply rej_spanned, rej_ident.
  - intros c. cbn beta. rewrite !orb_true_iff. tauto.
Qed.

Lemma near_node_head : near 1 anyp node_head.
Proof.
  unfold node_head. apply near_then with (j := 1)
    (G := fun ts => hd (fun x => (x =? 0x28)%N) ts = false).
  - apply near_or_not.
    + eapply near_up, near_spanned, near_type_name.
    + eapply enear_up, enear_spanned, rej_enear, rej_type_name.
  - apply near_spanned, near_ident.
  - apply eats_spanned, eats_ident.
  - intros b r1 rest alt Q _. apply span_ok in Q as [l [Q _]].
    pose proof (rej_no _ _ _ _ _ _ rej_ident Q) as H.
    apply (hd_excl _ _ _ H). intros c F. apply N.eqb_neq. intros ->. discriminate F.
Qed.

Lemma eats_node_head : eats 1 node_head.
Proof.
  unfold node_head. apply (eats_then 0 1).
  - apply eats_or_not. eapply eats_le; [apply eats_spanned, eats_type_name|lia].
  - apply eats_spanned, eats_ident.
Qed.

Lemma S_node_head : Safe node_head.
Proof. unfold node_head. auto with safe. Qed.

Lemma node_eq (nodes : parser (list (snode Sp))) : node_ nodes =
  p_map make_node
    (p_then_ignore
      (p_then (p_then node_head node_items) (opt_children nodes)) node_end).
Proof. reflexivity. Qed.

Lemma dig_not_brace q : hd f_dig q = true -> hd (fun c => (c =? 0x7B)%N) (q : toks) = false.
Proof. intros H. apply (hd_excl _ _ _ H). intros c D. apply dig_cases in D. lia. Qed.

Lemma brace_stop q0 q : after q0 q -> hd (fun c => (c =? 0x7B)%N) q = true -> stop q0 q.
Proof.
  intros A H. split; auto. split; [|now apply brace_calm].
  apply (hd_excl _ _ _ H). intros c X. apply N.eqb_eq in X. now subst.
Qed.

Lemma nss_not_eq ts a q0 alt : r_out (nss ts) = Ok a q0 alt -> not_eq q0 -> not_eq ts.
Proof.
  intros Q N. destruct (ns1_cases ts) as [(x & y & z & _ & _ & F)|(e & _ & Q')].
  - now apply (not_eq_hd _ _ F).
  - congruence.
Qed.

Lemma brace_not_eq q0 q : after q0 q -> hd (fun c => (c =? 0x7B)%N) q = true -> not_eq q0.
Proof.
  intros [[-> _]|[S _]] H.
  - apply (hd_excl _ _ _ H). intros c. lia.
  - apply (hd_excl _ _ _ (sl_minus_hd _ S)). intros c. lia.
Qed.

Lemma not_term_brace q0 q : after q0 q -> hd (fun c => (c =? 0x7B)%N) q = true ->
  ~ termhead q0.
Proof.
  intros [[-> _]|[S _]] H (H1 & H2 & H3 & H4 & H5); congruence.
Qed.

Lemma not_term_dig q0 q : after q0 q -> hd f_dig q = true -> ~ termhead q0.
Proof.
  intros [[-> _]|[S _]] H (H1 & H2 & H3 & H4 & H5); [|congruence].
  destruct q0 as [|[c s] q0]; [discriminate|]. cbn [hd] in *.
  unfold f_item, f_lit, f_num in H1. unfold f_dig in H. rewrite H in H1.
  rewrite !orb_true_r in H1. discriminate.
Qed.

Definition node_far (ts : toks) (e : located) : Prop :=
  l_rem e + 3 <= len ts /\ hd f_head ts = true.

Lemma node_spec n nodes ts : nodes_spec n nodes -> len ts <= n ->
  r_crash (node_ nodes ts) = [] /\
  match r_out (node_ nodes ts) with
  | Ok _ rest alt => suffix rest ts /\ len rest + 1 <= len ts
      /\ calm_opt (len ts) alt /\ within 0 rest alt
  | Err e => calm_err (len ts) e \/ node_far ts e
  end.
Proof.
  intros Hn L. rewrite node_eq, map_crash, map_out, then_ignore_out, map_crash, map_out.
  destruct (Safe_out _ ts S_node_head) as [C0 O0].
  destruct (r_out (node_head ts)) as [x0 r0 alt0|e0] eqn:Q0.
  2:{ destruct (then_err1 node_head node_items ts _ Q0) as [X1 X2].
      destruct (then_err1 _ (opt_children nodes) ts _ X1) as [Y1 Y2].
      destruct (then_err1 _ node_end ts _ Y1) as [Z1 Z2].
      rewrite Z1, Z2, Y2, X2, C0. auto. }
  destruct O0 as [S0 A0].
  pose proof (near_node_head _ _ _ _ Q0 I) as W0.
  pose proof (eats_node_head _ _ _ _ Q0) as L0.
  pose proof (rej_no _ _ _ _ _ _ rej_node_head Q0) as H0.
  destruct (node_items_spec r0) as (C1 & l & r1 & alt1 & e1 & Q1 & S1 & Qe & D1 & N1).
  pose proof (suffix_len _ _ S1) as L1. assert (Lr1 : len r1 <= n) by lia.
  destruct (children_spec n nodes r1 Hn Lr1)
    as (C2 & a0 & q0 & al0 & q & Qs & Af & D2).
  destruct (then_ok node_head node_items ts _ _ _ _ _ _ Q0 Q1) as [X1 X2].
  destruct (node_end_spec r1) as (C3 & a0' & q0' & al0' & Qs' & O3).
  pose proof (eq_trans (eq_sym Qs') Qs) as Y. injection Y as _ -> _.
  clear Qs' a0' al0'.
  pose proof (suffix_len _ _ (after_suffix _ _ Af)) as Lq.
  pose proof (suffix_len _ _ (nss_suffix _ _ _ _ Qs)) as Lq0.
  destruct D1 as [[K1 A1]|[-> F1]].
  - (* no number used as a name among the items *)
    destruct (merge_calm (len ts) alt0 alt1 A0) as [M1 M2].
    { eapply calm_le; [exact A1|lia]. }
    destruct D2 as [(x & r2 & alt2 & Q2 & H2 & S2 & L2 & A2 & W2)
                   |(e2 & Q2 & [[K2 N2]|[H2 L2]])].
    + (* a block of children *)
      destruct (then_ok _ (opt_children nodes) ts _ _ _ _ _ _ X1 Q2) as [Y1 Y2].
      destruct (merge_calm (len ts) (fst (merge_alts alt0 alt1)) alt2 M1) as [M3 M4].
      { eapply calm_le; [exact A2|lia]. }
      assert (W1 : within 0 r2 (fst (merge_alts alt0 alt1))).
      { apply mergeo_within.
        - eapply within_shift; [exact W0|lia].
        - destruct alt1 as [b|]; [|exact I]. cbn [within].
          assert (NE : not_eq r1).
          { eapply nss_not_eq; [exact Qs|]. eapply brace_not_eq; eauto. }
          pose proof (item_stop _ _ _ _ _ _ Qe Qs (brace_stop _ _ Af H2)).
          destruct (N1 NE b eq_refl); lia. }
      pose proof (suffix_len _ _ S2) as Ls2.
      destruct (node_end_spec r2) as (C4 & a4 & q4 & al4 & Qs4 & O4).
      destruct (r_out (node_end r2)) as [y r3 alt3|e3] eqn:Q3.
      * destruct O4 as (H4 & S4 & L4 & A4 & W4).
        destruct (then_ok _ node_end ts _ _ _ _ _ _ Y1 Q3) as [Z1 Z2].
        destruct (merge_calm (len ts) (fst (merge_alts (fst (merge_alts alt0 alt1)) alt2))
                    alt3 M3) as [M5 M6].
        { eapply calm_le; [exact A4|lia]. }
        rewrite Z1, Z2, Y2, X2, C0, C1, C2, C4, M2, M4, M6. split; auto.
        pose proof (suffix_len _ _ S4).
        split; [|split; [lia|split; auto]].
        -- eapply suffix_trans; [exact S4|]. eapply suffix_trans; [exact S2|].
           eapply suffix_trans; eauto.
        -- apply mergeo_within; auto. eapply within_le; [|eassumption].
           apply mergeo_within; auto.
      * destruct O4 as [K4 _].
        destruct (then_err _ node_end ts _ _ _ _ Y1 Q3) as [Z1 Z2].
        destruct (lmaxo_calm (len ts) e3 (fst (merge_alts (fst (merge_alts alt0 alt1)) alt2)))
          as [M5 M6]; auto.
        { eapply calm_weaken; [exact K4|lia]. }
        rewrite Z1, Z2, Y2, X2, C0, C1, C2, C4, M2, M4, M6. auto.
    + (* no children *)
      destruct (then_ok _ (opt_children nodes) ts _ _ _ _ _ _ X1 Q2) as [Y1 Y2].
      destruct (merge_calm (len ts) (fst (merge_alts alt0 alt1)) (Some e2) M1) as [M3 M4].
      { eapply calm_le; [exact K2|lia]. }
      destruct (r_out (node_end r1)) as [y r3 alt3|e3] eqn:Q3.
      * destruct O3 as (H4 & S4 & L4 & A4 & W4).
        destruct (then_ok _ node_end ts _ _ _ _ _ _ Y1 Q3) as [Z1 Z2].
        destruct (merge_calm (len ts)
                    (fst (merge_alts (fst (merge_alts alt0 alt1)) (Some e2)))
                    alt3 M3) as [M5 M6].
        { eapply calm_le; [exact A4|lia]. }
        rewrite Z1, Z2, Y2, X2, C0, C1, C2, C3, M2, M4, M6. split; auto.
        pose proof (suffix_len _ _ S4) as Ls4.
        split; [|split; [lia|split; auto]].
        -- eapply suffix_trans; [exact S4|]. eapply suffix_trans; eauto.
        -- assert (Bd : forall k, len q0 <= k + 1 -> len r3 <= k + 0).
           { intros k Hk. destruct L4 as [[-> ->]|L4]; cbn [List.length] in *; lia. }
           apply mergeo_within; auto. apply mergeo_within.
           ++ apply mergeo_within.
              ** destruct alt0 as [b|]; [|exact I]. cbn [within] in *. apply Bd. lia.
              ** destruct alt1 as [b|]; [|exact I]. cbn [within].
                 assert (NE : not_eq r1).
                 { eapply nss_not_eq; [exact Qs|]. apply H4. }
                 pose proof (item_stop _ _ _ _ _ _ Qe Qs (termhead_stop _ H4)).
                 apply Bd. destruct (N1 NE b eq_refl); lia.
           ++ cbn [within]. apply Bd.
              destruct (termhead_stop _ H4) as [Af' _].
              pose proof (after_det _ _ _ Af Af') as Y. subst q.
              apply N2; apply H4.
      * destruct O3 as [K4 _].
        destruct (then_err _ node_end ts _ _ _ _ Y1 Q3) as [Z1 Z2].
        destruct (lmaxo_calm (len ts) e3
            (fst (merge_alts (fst (merge_alts alt0 alt1)) (Some e2))))
          as [M5 M6]; auto.
        { eapply calm_weaken; [exact K4|lia]. }
        rewrite Z1, Z2, Y2, X2, C0, C1, C2, C3, M2, M4, M6. auto.
    + (* such an error among the children *)
      destruct (then_ok _ (opt_children nodes) ts _ _ _ _ _ _ X1 Q2) as [Y1 Y2].
      pose proof (brace_stop _ _ Af H2) as St.
      assert (W1 : within 1 q (fst (merge_alts alt0 alt1))).
      { apply mergeo_within.
        - eapply within_le; [exact W0|lia].
        - destruct alt1 as [b|]; [|exact I]. cbn [within].
          assert (NE : not_eq r1).
          { eapply nss_not_eq; [exact Qs|]. eapply brace_not_eq; eauto. }
          pose proof (item_stop _ _ _ _ _ _ Qe Qs St).
          destruct (N1 NE b eq_refl); lia. }
      rewrite (merge_far_r 1 q _ e2 W1) in Y1, Y2 by lia. cbn [fst snd] in Y1, Y2.
      destruct (r_out (node_end r1)) as [y r3 alt3|e3] eqn:Q3.
      * destruct O3 as [H4 _]. exfalso. eapply not_term_brace; eauto.
      * destruct O3 as [_ K4]. specialize (K4 (stop_calm0 _ _ St)).
        destruct (then_err _ node_end ts _ _ _ _ Y1 Q3) as [Z1 Z2].
        rewrite (lmaxo_far_r 1 q0 e3 e2) in Z1, Z2 by lia. cbn [fst snd] in Z1, Z2.
        rewrite Z1, Z2, Y2, X2, C0, C1, C2, C3, M2. split; auto. right.
        split; auto. lia.
  - (* a number used as a name *)
    destruct F1 as (b0 & p0 & bl0 & p & Ps & Hp & Ap & Hd & Np & Lp).
    pose proof (eq_trans (eq_sym Ps) Qs) as Y. injection Y as _ -> _.
    pose proof (after_det _ _ _ Ap Af) as Y. subst p. clear Ap.
    rewrite (merge_far_r 1 r0 alt0 e1 W0) in X1, X2 by lia. cbn [fst snd] in X1, X2.
    destruct D2 as [(x & r2 & alt2 & Q2 & H2 & _)|(e2 & Q2 & [[K2 N2]|[H2 L2]])].
    { rewrite (dig_not_brace _ Hd) in H2. discriminate. }
    2:{ rewrite (dig_not_brace _ Hd) in H2. discriminate. }
    specialize (N2 (dig_not_brace _ Hd) (dig_calm _ Hd)).
    destruct (then_ok _ (opt_children nodes) ts _ _ _ _ _ _ X1 Q2) as [Y1 Y2].
    rewrite (merge_far_l 1 q (Some e2) e1) in Y1, Y2 by (cbn [within]; lia).
    cbn [fst snd] in Y1, Y2.
    destruct (r_out (node_end r1)) as [y r3 alt3|e3] eqn:Q3.
    { destruct O3 as [H4 _]. exfalso. eapply not_term_dig; eauto. }
    destruct O3 as [_ K4]. specialize (K4 Np).
    destruct (then_err _ node_end ts _ _ _ _ Y1 Q3) as [Z1 Z2].
    rewrite (lmaxo_far_r 1 q0 e3 e1) in Z1, Z2 by lia. cbn [fst snd] in Z1, Z2.
    rewrite Z1, Z2, Y2, X2, C0, C1, C2, C3. split; auto. right. split; auto. lia.
Qed.

(** ** Sequences of nodes *)

Definition star_free (ts : toks) : Prop := sl 0x2A%N ts = false.
Definition closing (ts : toks) : bool := hd (fun c => (c =? 0x7D)%N) ts.

Definition sep_item (nodes : parser (list (snode Sp)))
  : parser (option unit * spanned (node Sp) Sp) :=
  p_then slashdash (p_spanned (node_ nodes)).

Lemma rej_node nodes : rej f_head (node_ nodes).
Proof.
  rewrite node_eq. apply rej_map, rej_then_ignore, rej_then, rej_then, rej_node_head.
Qed.

Lemma head_calm q : hd f_head q = true -> ns_calm (q : toks).
Proof.
  intros H. apply (ns_calm_hd _ _ H). intros c F.
  split; apply N.eqb_neq; intros ->; discriminate F.
Qed.

Definition item_good {A} (m : nat) (item : parser A) : Prop :=
  forall ts, len ts <= m -> r_crash (item ts) = [] /\
  match r_out (item ts) with
  | Ok _ rest alt => suffix rest ts /\ len rest + 1 <= len ts
      /\ calm_opt (len ts) alt /\ within 0 rest alt /\ star_free ts
  | Err e => (calm_err (len ts) e \/
       (l_rem e + 2 <= len ts /\ star_free ts /\ closing ts = false))
     /\ (closing ts = true -> len ts <= l_rem e + 1)
  end.

Lemma sep_item_good n nodes : nodes_spec n nodes -> item_good n (sep_item nodes).
Proof.
  intros Hn ts L. unfold sep_item.
  destruct (slashdash_spec ts) as (C & o & q & alt & Q & Af & A1 & W1).
  pose proof (after_suffix _ _ Af) as Sq. pose proof (suffix_len _ _ Sq) as Lq.
  assert (Lq' : len q <= n) by lia.
  destruct (node_spec n nodes q Hn Lq') as [C1 O].
  destruct (spanned_cases (node_ nodes) q)
    as [Cs [(b & rest & alt2 & sp & Q1 & Q2)|(e & Q1 & Q2)]]; rewrite Q1 in O.
  - destruct (then_ok _ _ _ _ _ _ _ _ _ Q Q2) as [X1 X2].
    destruct O as (S2 & L2 & A2 & W2).
    destruct (merge_calm (len ts) alt alt2 A1) as [M1 M2].
    { eapply calm_le; eauto. }
    rewrite X1, X2, C, Cs, C1, M2. split; auto.
    split; [eapply suffix_trans; eauto|]. split; [lia|]. split; auto.
    pose proof (head_calm _ (rej_no _ _ _ _ _ _ (rej_node nodes) Q1)) as NC. split.
    + apply mergeo_within; auto. eapply within_shift; [apply W1, NC|lia].
    + destruct Af as [[-> _]|[SL _]]; [apply NC|].
      apply (sl_excl _ _ _ SL). discriminate.
  - destruct (then_err _ _ _ _ _ _ _ Q Q2) as [X1 X2]. split.
    + rewrite X2, C, Cs, C1. cbn [app]. destruct O as [K|[K H]].
      * destruct (lmaxo_calm (len ts) e alt) as [M1 M2]; auto.
        eapply calm_weaken; eauto.
      * rewrite (lmaxo_far_l 1 q alt e) by (auto using head_calm; lia). reflexivity.
    + rewrite X1. split.
      * destruct O as [K|[K H]].
        -- left. destruct (lmaxo_calm (len ts) e alt) as [M1 M2]; auto.
           eapply calm_weaken; eauto.
        -- rewrite (lmaxo_far_l 1 q alt e) by (auto using head_calm; lia).
           cbn [fst]. right. split; [lia|].
           pose proof (head_calm _ H) as [NC _].
           destruct Af as [[-> _]|[SL _]]; split.
           ++ exact NC.
           ++ apply (hd_excl _ _ _ H). intros c F.
              apply N.eqb_neq. intros ->. discriminate F.
           ++ apply (sl_excl _ _ _ SL). discriminate.
           ++ apply (hd_excl _ _ _ (sl_minus_hd _ SL)). intros c. lia.
      * intros Cl.
        assert (q = ts) as ->.
        { destruct Af as [[-> _]|[SL _]]; auto. apply sl_minus_hd in SL.
          unfold closing in Cl. rewrite (hd_excl _ _ _ Cl) in SL; [discriminate|].
          intros c. lia. }
        assert (H : hd f_head ts = false).
        { apply (hd_excl _ _ _ Cl). intros c F. apply N.eqb_eq in F. now subst. }
        assert (NC : ns_calm ts).
        { apply (ns_calm_hd _ _ Cl). intros c F. lia. }
        apply lmaxo_rem; auto.
        pose proof (rej_enear _ _ (rej_node nodes) _ _ Q1 H). lia.
Qed.

Definition delim_good {B} (d : parser B) : Prop :=
  quiet d /\ forall ts, r_crash (d ts) = [] /\ exists x r alt,
    r_out (d ts) = Ok x r alt /\ suffix r ts /\ calm_opt (len ts) alt
    /\ (star_free r -> within 1 r alt).

Lemma lines_good : delim_good (p_repeated line_space).
Proof.
  split.
  - apply quiet_repeat, quiet_line_space.
  - intros ts. assert (SL : Safe (p_repeated (@line_space Sp E))) by auto with safe.
    destruct (Safe_out _ ts SL) as [C O]. split; auto.
    destruct (repeat0_ok None line_space ts) as (x & r & alt & Q).
    change (p_repeat 0 None line_space) with (p_repeated line_space) in Q.
    rewrite Q in O. destruct O. exists x, r, alt. repeat split; auto.
    exact (near_line_spaces _ _ _ _ Q).
Qed.

Lemma sep_or_not_good {B} (d : parser B) alt ts : delim_good d ->
  forall x r dalt, r_out (d ts) = Ok x r dalt ->
  sep_or_not d alt ts = (fst (merge_alts alt dalt), r, snd (merge_alts alt dalt)).
Proof.
  intros [Hq Hd] x r dalt Q. unfold sep_or_not. rewrite Q, (Hq ts).
  destruct (Hd ts) as [C _]. rewrite C. cbn [merge_alts_list app].
  destruct (merge_alts alt dalt). reflexivity.
Qed.

Lemma sep_loop_good {A B} m (item : parser A) (d : parser B) :
  item_good m item -> delim_good d ->
  forall fuel errs outs alt ts ts0,
  len ts < fuel -> len ts <= m -> suffix ts ts0 -> calm_opt (len ts0) alt ->
  within 0 ts alt ->
  exists errs' outs' alt' ts' e x r dalt,
    sep_loop fuel item d errs outs alt [] ts = (errs', outs', alt', ts', Some e, [])
    /\ suffix ts' ts0 /\ len ts' <= len ts
    /\ r_out (d ts') = Ok x r dalt /\ r_out (item r) = Err e
    /\ calm_opt (len ts0) alt' /\ (star_free r -> within 1 r alt').
Proof.
  intros Hi Hd. induction fuel as [|fuel IH]; intros errs outs alt ts ts0 F L S0 Ca W;
    [lia|].
  cbn [sep_loop]. pose proof (suffix_len _ _ S0) as L0.
  destruct (proj2 Hd ts) as (C & x & r & dalt & Q & S1 & A1 & W1).
  rewrite Q, C. pose proof (suffix_len _ _ S1) as L1.
  destruct (merge_calm (len ts0) alt dalt Ca) as [M1 M2].
  { eapply calm_le; [exact A1|lia]. }
  assert (Wm : star_free r -> within 1 r (fst (merge_alts alt dalt))).
  { intros SF. apply mergeo_within; auto. eapply within_shift; [exact W|lia]. }
  assert (Wz : within 0 r alt) by (eapply within_le; eauto).
  destruct (merge_alts alt dalt) as [alt1 c1] eqn:M. cbn [fst snd] in *. subst c1.
  assert (Lr : len r <= m) by lia.
  destruct (Hi r Lr) as [C1 O]. rewrite C1. cbn [app].
  destruct (r_out (item r)) as [a rest ialt|e] eqn:R.
  - destruct O as (S2 & L2 & A2 & W2 & SF). pose proof (suffix_len _ _ S2) as Ls2.
    destruct (merge_calm (len ts0) alt1 ialt M1) as [M3 M4].
    { eapply calm_le; [exact A2|lia]. }
    assert (W3 : within 0 rest (fst (merge_alts alt1 ialt))).
    { apply mergeo_within; auto. eapply within_shift; [apply Wm, SF|lia]. }
    destruct (merge_alts alt1 ialt) as [alt2 c2]. cbn [fst snd] in *. subst c2.
    cbn [app].
    destruct (IH (errs ++ r_errs (d ts) ++ r_errs (item r)) (a :: outs) alt2 rest ts0)
      as (errs' & outs' & alt' & ts' & e & x' & r' & dalt' & X & Y); try lia; auto.
    { eapply suffix_trans; [exact S2|]. eapply suffix_trans; eauto. }
    exists errs', outs', alt', ts', e, x', r', dalt'. split; auto.
    destruct Y as (Y1 & Y2 & Y3). split; auto. split; [lia|auto].
  - exists (errs ++ r_errs (d ts) ++ r_errs (item r)), outs, alt1, ts, e, x, r, dalt.
    repeat split; auto.
Qed.

Lemma separated_good {A B} m (item : parser A) (d : parser B) :
  item_good m item -> delim_good d -> forall ts, len ts <= m ->
  r_crash (p_separated item d ts) = [] /\
  exists l rest alt, r_out (p_separated item d ts) = Ok l rest alt /\ suffix rest ts
    /\ (calm_opt (len ts) alt \/
        exists e, alt = Some e /\ l_rem e + 2 <= len rest /\ closing rest = false)
    /\ (closing rest = true -> within 1 rest alt).
Proof.
  intros Hi Hd ts L. unfold p_separated.
  assert (CS : forall r, closing r = true -> star_free r).
  { intros r H. apply sl_hd, (hd_excl _ _ _ H). intros c. lia. }
  assert (FIN : forall r e alt, len r <= len ts -> r_out (item r) = Err e ->
    calm_opt (len ts) alt -> (star_free r -> within 1 r alt) ->
    snd (merge_alts alt (Some e)) = [] /\
    (calm_opt (len ts) (fst (merge_alts alt (Some e))) \/
     exists e', fst (merge_alts alt (Some e)) = Some e' /\ l_rem e' + 2 <= len r
       /\ closing r = false) /\
    (closing r = true -> within 1 r (fst (merge_alts alt (Some e))))).
  { intros r e alt Lr R Ca W. destruct (Hi r ltac:(lia)) as [_ O]. rewrite R in O.
    destruct O as [O Cl].
    assert (Wc : closing r = true -> within 1 r (fst (merge_alts alt (Some e)))).
    { intros H. apply mergeo_within; auto. exact (Cl H). }
    destruct O as [K|(K & SF & NC)].
    - destruct (merge_calm (len ts) alt (Some e) Ca) as [M1 M2]; auto.
      eapply calm_weaken; eauto.
    - rewrite (merge_far_r 1 r alt e) in * by (auto; lia). cbn [fst snd] in *.
      repeat split; auto. right. eauto. }
  destruct (proj2 Hd ts) as (C & x & r & dalt & Q & S1 & A1 & W1).
  rewrite (sep_or_not_good d None ts Hd _ _ _ Q).
  assert (Mn : merge_alts None dalt = (dalt, [])) by now destruct dalt.
  rewrite Mn. cbn [fst snd]. pose proof (suffix_len _ _ S1) as L1.
  assert (Lr : len r <= m) by lia.
  destruct (Hi r Lr) as [C1 O]. rewrite C1.
  destruct (r_out (item r)) as [a rest ialt|e] eqn:R.
  - destruct O as (S2 & L2 & A2 & W2 & SF). pose proof (suffix_len _ _ S2) as Ls2.
    destruct (merge_calm (len ts) dalt ialt A1) as [M3 M4].
    { eapply calm_le; [exact A2|lia]. }
    assert (W3 : within 0 rest (fst (merge_alts dalt ialt))).
    { apply mergeo_within; auto. eapply within_shift; [apply W1, SF|lia]. }
    destruct (merge_alts dalt ialt) as [alt1 c1]. cbn [fst snd] in *. subst c1.
    cbn [app].
    destruct (sep_loop_good m item d Hi Hd (S (len ts)) (r_errs (item r)) [a] alt1
                rest ts)
      as (errs' & outs' & alt' & ts' & e & x' & r' & dalt' & X & S3 & L3 & Qd & Qi & A3 & W4);
      try lia; auto.
    { eapply suffix_trans; eauto. }
    rewrite X. rewrite (sep_or_not_good d alt' ts' Hd _ _ _ Qd).
    destruct (proj2 Hd ts') as (C5 & x5 & r5 & dalt5 & Q5 & S5 & A5 & W5).
    assert (r5 = r') as -> by congruence. assert (dalt5 = dalt') as -> by congruence.
    pose proof (suffix_len _ _ S3) as Ls3. pose proof (suffix_len _ _ S5) as Ls5.
    destruct (merge_calm (len ts) alt' dalt' A3) as [M5 M6].
    { eapply calm_le; [exact A5|lia]. }
    assert (W6 : star_free r' -> within 1 r' (fst (merge_alts alt' dalt'))).
    { intros SF'. apply mergeo_within; auto. }
    assert (Lr' : len r' <= len ts) by lia.
    destruct (FIN r' e _ Lr' Qi M5 W6) as (F1 & F2 & F3).
    destruct (merge_alts alt' dalt') as [alt3 c3]. cbn [fst snd] in *. subst c3.
    destruct (merge_alts alt3 (Some e)) as [alt4 c4]. cbn [fst snd] in *. subst c4.
    cbn [r_crash r_out app]. split; auto. exists (rev outs'), r', alt4.
    repeat split; auto. eapply suffix_trans; eauto.
  - destruct (FIN r e dalt L1 R A1 W1) as (F1 & F2 & F3).
    destruct (merge_alts dalt (Some e)) as [alt4 c4]. cbn [fst snd] in *. subst c4.
    cbn [r_crash r_out app]. split; auto. exists [], r, alt4. repeat split; auto.
Qed.

Lemma map_ok_intro {A B} (f : A -> B) (p : parser A) ts a rest alt :
  r_out (p ts) = Ok a rest alt -> r_out (p_map f p ts) = Ok (f a) rest alt.
Proof. intros Q. now rewrite map_out, Q. Qed.

Lemma nodes_body_eq (nodes : parser (list (snode Sp))) : nodes_body nodes =
  p_map (flat_map keep_node) (p_separated (sep_item nodes) (p_repeated line_space)).
Proof. reflexivity. Qed.

Lemma nodes_body_spec n nodes : nodes_spec n nodes -> nodes_spec (S n) (nodes_body nodes).
Proof.
  intros Hn ts L. assert (L' : len ts <= n) by lia.
  destruct (separated_good n (sep_item nodes) (p_repeated line_space)
    (sep_item_good n nodes Hn) lines_good ts L') as (C & l & rest & alt & Q & X).
  rewrite nodes_body_eq. split; [etransitivity; [apply map_crash|exact C]|].
  exists (flat_map keep_node l), rest, alt. split; [|exact X].
  exact (map_ok_intro (flat_map keep_node) _ _ _ _ _ Q).
Qed.

Lemma nodes_rec_spec fuel : nodes_spec fuel (@nodes_rec Sp E fuel).
Proof.
  induction fuel as [|fuel IH].
  - intros ts L. lia.
  - exact (nodes_body_spec _ _ IH).
Qed.

Lemma end_err rest e : r_out (@p_end Sp E rest) = Err e ->
  calm_err (len rest) e /\ l_rem e = len rest /\ r_crash (p_end rest) = [].
Proof.
  destruct rest as [|[c s] rest]; [discriminate|].
  cbn. intros R. inversion R; subst. repeat split. cbn. lia.
Qed.

Theorem document_safe ts : r_crash (@document_ Sp E ts) = [].
Proof.
  change (@document_ Sp E ts) with (p_then_ignore (@nodes Sp E) p_end ts).
  rewrite then_ignore_out, map_crash.
  destruct (nodes_rec_spec (S (len ts)) ts ltac:(lia))
    as (C & l & rest & alt & Q & S1 & D & _).
  change (nodes_rec (S (len ts)) ts) with (@nodes Sp E ts) in C, Q.
  destruct (r_out (p_end rest)) as [x r2 alt2|e] eqn:R.
  - destruct (then_ok _ p_end _ _ _ _ _ _ _ Q R) as [_ X]. rewrite X, C.
    destruct rest as [|[c s] rest]; [|discriminate R]. cbn in R. inversion R; subst.
    destruct alt; reflexivity.
  - destruct (then_err _ p_end _ _ _ _ _ Q R) as [_ X]. rewrite X, C.
    destruct (end_err _ _ R) as (Ke & Le & Ce). rewrite Ce. cbn [app].
    destruct D as [D|(e' & -> & D & _)].
    + destruct (lmaxo_calm (len ts) e alt) as [_ M]; auto.
      eapply calm_weaken; [exact Ke|]. now apply suffix_len.
    + rewrite (lmaxo_far_r 0 rest e e') by lia. reflexivity.
Qed.

End DocSafe.

(** ** Entry points *)

Lemma run_no_panic {Sp A} (p : parser Sp A) ts :
  r_crash (p ts) = [] -> run p ts <> Panicked.
Proof.
  intros C. unfold run. rewrite C.
  destruct (r_out (p ts)); [destruct (r_errs (p ts))|]; discriminate.
Qed.

Lemma run_rejected {Sp A} (p : parser Sp A) ts errs :
  run p ts = Rejected errs -> errs <> [].
Proof.
  unfold run. destruct (r_crash (p ts)); [|discriminate].
  destruct (r_out (p ts)) as [a r al|e].
  - destruct (r_errs (p ts)); [discriminate|]. intros [= <-]. discriminate.
  - intros [= <-]. rewrite map_app. intros X. apply app_eq_nil in X as [_ X]. discriminate.
Qed.

Theorem parse_span_returns t :
  (exists d, parse_ast_span t = Parsed d) \/
  (exists errs, errs <> [] /\ parse_ast_span t = Rejected errs).
Proof.
  unfold parse_ast_span. destruct (span_stream t) as [ts eoi].
  pose proof (run_no_panic (@document_ span (span_env eoi)) ts (document_safe ts)) as N.
  pose proof (run_rejected (@document_ span (span_env eoi)) ts) as R.
  destruct (run _ ts) as [d|errs|]; [left; eauto|right; eauto|congruence].
Qed.

Theorem parse_linespan_returns width t :
  (exists d, parse_ast_linespan width t = Parsed d) \/
  (exists errs, errs <> [] /\ parse_ast_linespan width t = Rejected errs).
Proof.
  unfold parse_ast_linespan. destruct (linespan_stream width t) as [ts eoi].
  pose proof (run_no_panic (@document_ linespan (linespan_env eoi)) ts (document_safe ts)) as N.
  pose proof (run_rejected (@document_ linespan (linespan_env eoi)) ts) as R.
  destruct (run _ ts) as [d|errs|]; [left; eauto|right; eauto|congruence].
Qed.
