(** If a struct is decoded without errors, nothing in the node was dropped. *)

From Coq Require Import NArith List Bool String Lia Arith.
From Verif Require Import Chars Ast Errors Kdl Decode Scalar DecodeSpec DecodeProps LexIdent
  DeriveDef Derive DeriveSpec DeriveProps FieldSpec FieldProps StructSpec StructProps HonestProps
  HandSpec.
Import ListNotations.

(** ** Steps that add nothing *)

Definition quiet {Sp} (c c' : context Sp) : Prop := c_errors c' = c_errors c.

Lemma appends_app {Sp} (c : context Sp) es : appends c (with_errors c es).
Proof. exists es. reflexivity. Qed.

Lemma appends_quiet {Sp} (c1 c2 c3 : context Sp) : appends c1 c2 -> appends c2 c3 -> quiet c1 c3 ->
  quiet c1 c2 /\ quiet c2 c3.
Proof.
  unfold quiet. intros [es E] [es' E'] Q. rewrite E' in Q. rewrite E in Q.
  rewrite <- app_assoc in Q. rewrite <- (app_nil_r (c_errors c1)) in Q at 2.
  apply app_inv_head, app_eq_nil in Q. destruct Q as [-> ->].
  now rewrite app_nil_r in E, E'.
Qed.

Lemma with_errors_quiet {Sp} (c : context Sp) es : quiet c (with_errors c es) -> es = [].
Proof.
  unfold quiet. cbn. intros Q. rewrite <- (app_nil_r (c_errors c)) in Q at 2.
  now apply app_inv_head in Q.
Qed.

Lemma in_turn_appends {Sp X Y} (R : list X -> X -> context Sp -> Y -> context Sp -> Prop) :
  (forall b x c y c', R b x c y c' -> appends c c') ->
  forall before xs c ys c', in_turn R before xs c ys c' -> appends c c'.
Proof.
  intros A before xs c ys c' H. induction H.
  - apply (on_refl _ appends_onward).
  - eapply (on_trans _ appends_onward); eauto.
Qed.

(** The step of an element, which added nothing if all of them did not. *)
Lemma in_turn_step {Sp X Y} (R : list X -> X -> context Sp -> Y -> context Sp -> Prop) :
  (forall b x c y c', R b x c y c' -> appends c c') ->
  forall before xs c ys c', in_turn R before xs c ys c' -> quiet c c' ->
  forall i x, nth_error xs i = Some x ->
  exists y c1 c2, nth_error ys i = Some y /\ R (before ++ firstn i xs) x c1 y c2 /\ quiet c1 c2.
Proof.
  intros A before xs c ys c' H. induction H as [|before x xs c c1 c2 y ys H1 H2 IH]; intros Q i x' N.
  - now destruct i.
  - destruct (appends_quiet c c1 c2) as [Q1 Q2]; eauto using in_turn_appends.
    destruct i as [|i].
    + injection N as <-. exists y, c, c1. cbn [firstn]. now rewrite app_nil_r.
    + destruct (IH Q2 i x' N) as (y' & d1 & d2 & H & K & Q').
      exists y', d1, d2. cbn [firstn]. rewrite <- app_assoc in K. auto.
Qed.

Lemma nth_firstn_skipn {A} (l : list A) i x : nth_error l i = Some x ->
  l = firstn i l ++ x :: skipn (S i) l.
Proof.
  revert i. induction l as [|a l IH]; intros [|i] H; try discriminate.
  - injection H as ->. reflexivity.
  - cbn. f_equal. apply IH. exact H.
Qed.

Lemma Forall2_nth {A B} (R : A -> B -> Prop) xs ys : Forall2 R xs ys ->
  forall i x, nth_error xs i = Some x -> exists y, nth_error ys i = Some y /\ R x y.
Proof.
  induction 1 as [|a b xs ys H1 H2 IH]; intros [|i] x N; try discriminate.
  - injection N as <-. exists b. auto.
  - apply IH. exact N.
Qed.

Lemma only_one {A} (f : A -> bool) l : forall i a, nth_error l i = Some a -> f a = true ->
  (forall j b, nth_error l j = Some b -> f b = true -> j = i) -> List.length (filter f l) = 1.
Proof.
  induction l as [|x l IH]; intros [|i] a N F U; try discriminate.
  - injection N as ->. cbn [filter]. rewrite F. cbn. f_equal.
    destruct (filter f l) as [|y l'] eqn:E; [reflexivity|]. exfalso.
    assert (I : In y (filter f l)) by (rewrite E; now left). apply filter_In in I.
    destruct I as [I Fy]. apply In_nth_error in I. destruct I as [j Nj].
    specialize (U (S j) y Nj Fy). discriminate.
  - cbn [filter]. destruct (f x) eqn:Fx.
    + specialize (U 0 x eq_refl Fx). discriminate.
    + eapply IH; eauto. intros j b Nj Fb. specialize (U (S j) b Nj Fb). now injection U.
Qed.

(** ** Arguments *)

Section Parts.
Context {Sp L : Type}.

Lemma gives_appends {X Y} (f : X -> dec Sp Y) : (forall x, moves appends (f x)) ->
  forall b x c y c', gives f b x c y c' -> appends c c'.
Proof. intros M b x c y c' H. specialize (M x c). unfold gives in H. now rewrite H in M. Qed.

Lemma value_moves m o (i : tyimpl Sp L) a : within appends i -> moves appends (decode_value m o i a).
Proof. apply adds_value, appends_onward. Qed.

Lemma args_appends (fields : list (arg Sp L)) var given c out c' :
  Forall (fun f => within appends (f_impl f)) (map ar_field fields ++ map fst (lone var)) ->
  args_right fields var given c out c' -> appends c c'.
Proof.
  intros W (xs & ys & c1 & H1 & _ & H3). rewrite Forall_app, !Forall_forall in W.
  destruct W as [W1 W2].
  assert (A1 : appends c c1).
  { clear H3. revert H1. generalize (@nil (arg Sp L * value Sp)). intros l H1.
    assert (I : forall x, In x (combine fields given) -> In (fst x) fields)
      by (intros [f g] I; eapply in_combine_l, I).
    revert I. induction H1 as [|before x xs0 d d1 d2 y ys0 G H IH]; intros I;
      [apply (on_refl _ appends_onward)|].
    eapply (on_trans _ appends_onward).
    - unfold gives, decodes_arg in G.
      pose proof (value_moves (ar_decode (fst x)) (ar_option (fst x)) (f_impl (ar_field (fst x)))
        (snd x) (W1 _ (in_map ar_field _ _ (I x (or_introl eq_refl)))) d) as M.
      rewrite G in M. exact M.
    - apply IH. intros z Z. apply I. now right. }
  destruct var as [[f m]|].
  - destruct H3 as (zs & H3 & _). eapply (on_trans _ appends_onward); [exact A1|].
    eapply in_turn_appends, H3. apply gives_appends. intros x. apply value_moves, W2. now left.
  - destruct H3 as (_ & -> & _). exact A1.
Qed.

Lemma in_turn_gives_in {X Y} (f : X -> dec Sp Y) (P : X -> Prop) :
  (forall x, P x -> moves appends (f x)) ->
  forall before xs c ys c', Forall P xs -> in_turn (gives f) before xs c ys c' ->
  in_turn (fun b x c y c' => gives f b x c y c' /\ P x) before xs c ys c'.
Proof.
  intros M before xs c ys c' F H. induction H; [constructor|].
  inversion F; subst. econstructor; eauto.
Qed.

Lemma args_hand (fields : list (arg Sp L)) var given c out c' (v : dval L) :
  Forall (fun f => within appends (f_impl f)) (map ar_field fields ++ map fst (lone var)) ->
  args_right fields var given c out c' -> quiet c c' ->
  all_hold v (map ar_field fields ++ map fst (lone var)) out ->
  forall i a, nth_error given i = Some a ->
  (exists f x, nth_error fields i = Some f
     /\ fine (decode_value (ar_decode f) (ar_option f) (f_impl (ar_field f)) a) x
     /\ holds v (ar_field f) x)
  \/ (exists f m xs j x, var = Some (f, m) /\ i = List.length fields + j
     /\ fine (decode_value m false (f_impl f) a) x
     /\ holds v f (VList xs) /\ nth_error xs j = Some x).
Proof.
  intros W H Q AH i a N.
  destruct H as (xs & ys & c1 & H1 & H2 & H3). rewrite Forall_app, !Forall_forall in W.
  destruct W as [W1 W2].
  assert (G1 : in_turn (fun b x c y c' => gives decodes_arg b x c y c'
                 /\ within appends (f_impl (ar_field (fst x)))) [] (combine fields given) c xs c1).
  { apply in_turn_gives_in; [|apply Forall_forall|exact H1].
    - intros [f g] Wf. now apply value_moves.
    - intros [f g] I. apply W1, in_map. eapply in_combine_l, I. }
  assert (St : forall b (x : arg Sp L * value Sp) d y d', gives decodes_arg b x d y d'
      /\ within appends (f_impl (ar_field (fst x))) -> appends d d').
  { intros b x d y d' [G Wx]. pose proof (value_moves (ar_decode (fst x)) (ar_option (fst x))
      (f_impl (ar_field (fst x))) (snd x) Wx d) as M. unfold gives, decodes_arg in G.
    now rewrite G in M. }
  assert (L1 : List.length xs = Nat.min (List.length fields) (List.length given))
    by (apply in_turn_length in H1; rewrite combine_length in H1; congruence).
  assert (A1 : appends c c1) by (eapply in_turn_appends; [exact St|exact G1]).
  assert (Q1 : quiet c c1).
  { destruct var as [[f m]|].
    - destruct H3 as (zs & H3 & _). refine (proj1 (appends_quiet c c1 c' A1 _ Q)).
      eapply in_turn_appends, H3. apply gives_appends. intros x. apply value_moves, W2. now left.
    - destruct H3 as (_ & -> & _). exact Q. }
  destruct (nth_error fields i) as [f|] eqn:Nf.
  - left. exists f.
    assert (Nc : nth_error (combine fields given) i = Some (f, a)).
    { clear - N Nf. revert given i N Nf. induction fields as [|g fields IH]; intros [|b given] [|i] N Nf;
        try discriminate; cbn in *; [congruence|auto]. }
    destruct (in_turn_step _ St _ _ _ _ _ G1 Q1 i _ Nc) as (y & d1 & d2 & Ny & [G _] & Qd).
    exists y. split; [reflexivity|]. split; [exists d1, d2; auto|].
    assert (No : nth_error out i = Some y).
    { destruct var as [[g m]|].
      - destruct H3 as (zs & _ & ->). rewrite nth_error_app1; [exact Ny|].
        apply nth_error_Some. congruence.
      - destruct H3 as (_ & _ & ->). rewrite nth_error_app1; [exact Ny|].
        apply nth_error_Some. congruence. }
    destruct (Forall2_nth _ _ _ AH i (ar_field f)) as (y' & Ny' & Hy).
    { rewrite nth_error_app1; [now apply map_nth_error|]. rewrite map_length.
      apply nth_error_Some. congruence. }
    congruence.
  - right. apply nth_error_None in Nf.
    assert (Li : i < List.length given) by (apply nth_error_Some; congruence).
    destruct var as [[f m]|]; [|destruct H3; lia].
    destruct H3 as (zs & H3 & ->).
    assert (ys = []) as ->.
    { apply Forall2_len in H2. rewrite skipn_length in H2. destruct ys; [reflexivity|cbn in H2; lia]. }
    assert (Sf : forall b (x : value Sp) d y d', gives (decode_value m false (f_impl f)) b x d y d' ->
      appends d d') by (apply gives_appends; intros x; apply value_moves, W2; now left).
    assert (Q2 : quiet c1 c').
    { refine (proj2 (appends_quiet c c1 c' A1 _ Q)).
      eapply in_turn_appends; [exact Sf|exact H3]. }
    assert (Ns : nth_error (skipn (List.length fields) given) (i - List.length fields) = Some a).
    { rewrite <- N. rewrite <- (firstn_skipn (List.length fields) given) at 2.
      rewrite nth_error_app2; rewrite firstn_length; [f_equal; lia|lia]. }
    destruct (in_turn_step _ Sf _ _ _ _ _ H3 Q2 _ _ Ns) as (y & d1 & d2 & Ny & G & Qd).
    exists f, m, zs, (i - List.length fields), y.
    split; [reflexivity|]. split; [lia|]. split; [exists d1, d2; auto|]. split; [|exact Ny].
    destruct (Forall2_nth _ _ _ AH (List.length fields) f) as (y' & Ny' & Hy).
    { rewrite nth_error_app2; rewrite map_length; [|lia]. now rewrite Nat.sub_diag. }
    cbn [app] in Ny'. rewrite nth_error_app2 in Ny' by lia.
    replace (List.length fields - List.length xs) with 0 in Ny' by lia.
    injection Ny' as <-. exact Hy.
Qed.

(** ** Properties *)

Lemma prop_appends (ps : list (prop Sp L)) var :
  Forall (fun f => within appends (f_impl f)) (map pr_field ps ++ map fst (lone var)) ->
  forall b kv c t c', prop_taken ps var b kv c t c' -> appends c c'.
Proof.
  rewrite Forall_app, !Forall_forall. intros [W1 W2] b kv c t c' H.
  destruct H as [k a p c x c' I _ G|k a f m c kk x c' _ V _ G].
  - pose proof (value_moves (pr_decode p) (pr_option p) (f_impl (pr_field p)) a
      (W1 _ (in_map _ _ _ I)) c) as M. now rewrite G in M.
  - subst var. pose proof (value_moves m false (f_impl f) a (W2 f (or_introl eq_refl)) c) as M.
    now rewrite G in M.
Qed.

Lemma nodup_nth {A} (l : list A) : NoDup l -> forall i j x,
  nth_error l i = Some x -> nth_error l j = Some x -> i = j.
Proof.
  intros ND i j x Ni Nj. rewrite NoDup_nth_error in ND. apply ND; [|congruence].
  apply nth_error_Some. congruence.
Qed.

Lemma props_hand (ps : list (prop Sp L)) var kvs c out c' (v : dval L) :
  Forall (fun f => within appends (f_impl f)) (map pr_field ps ++ map fst (lone var)) ->
  NoDup (map pr_name ps) -> NoDup (names_of kvs) ->
  props_right ps var kvs c out c' -> quiet c c' ->
  all_hold v (map pr_field ps ++ map fst (lone var)) out ->
  forall k a, In (k, a) kvs ->
  (exists p x, In p ps /\ pr_name p = s_value k
     /\ fine (decode_value (pr_decode p) (pr_option p) (f_impl (pr_field p)) a) x
     /\ holds v (pr_field p) x)
  \/ (exists f m kxs kk x, var = Some (f, m)
     /\ ~ In (s_value k) (map pr_name ps)
     /\ ti_key_from_str (f_impl f) (s_value k) = inl kk
     /\ fine (decode_value m false (f_impl f) a) x
     /\ holds v f (VPairs kxs) /\ In (kk, x) kxs).
Proof.
  intros W NP NK (ts & xs & H1 & H2 & ->) Q AH k a I.
  apply In_nth_error in I. destruct I as [i N].
  destruct (in_turn_step _ (prop_appends ps var W) _ _ _ _ _ H1 Q i _ N)
    as (t & d1 & d2 & Nt & G & Qd).
  inversion G as [k' a' p cc x cc' Ip En Gx|k' a' f m cc kk x cc' Ni Ev Ek Gx]; subst.
  - left. exists p, x. split; [assumption|]. split; [assumption|].
    split; [exists d1, d2; auto|].
    apply In_nth_error in Ip. destruct Ip as [ip Np].
    destruct (Forall2_nth _ _ _ H2 ip p Np) as (y & Ny & Hy).
    destruct (Forall2_nth _ _ _ AH ip (pr_field p)) as (y' & Ny' & Hh).
    { rewrite nth_error_app1; [now apply map_nth_error|]. rewrite map_length.
      apply nth_error_Some. congruence. }
    rewrite nth_error_app1 in Ny' by (apply nth_error_Some; congruence).
    assert (y' = y) by congruence. subst y'.
    inversion Hy as [j kv z Nj Ej Ntj|z Ab _]; subst.
    + assert (j = i).
      { apply (nodup_nth (names_of kvs) NK j i (pr_name p)); unfold names_of.
        - erewrite map_nth_error by exact Nj. cbn. congruence.
        - erewrite map_nth_error by exact N. cbn. congruence. }
      subst j. rewrite Nt in Ntj. injection Ntj as <-. exact Hh.
    + exfalso. apply Ab. rewrite En. apply nth_error_In in N.
      apply (in_map (fun kv => s_value (fst kv))) in N. exact N.
  - right. exists f, m, (rests ts), kk, x. split; [reflexivity|]. split; [assumption|].
    split; [assumption|]. split; [exists d1, d2; auto|]. split.
    + destruct (Forall2_nth _ _ _ AH (List.length ps) f) as (y' & Ny' & Hh).
      { rewrite nth_error_app2; rewrite map_length; [|lia]. now rewrite Nat.sub_diag. }
      apply Forall2_len in H2. rewrite nth_error_app2 in Ny' by lia.
      rewrite H2, Nat.sub_diag in Ny'. injection Ny' as <-. exact Hh.
    + unfold rests. apply in_flat_map. exists (To_rest kk x). split; [|now left].
      eapply nth_error_In, Nt.
Qed.

(** ** Children *)

Lemma child_appends dn dv (ds : list (child Sp L)) :
  (forall d n, In d ds -> moves appends (dn d n)) ->
  (forall f n, dv = Some f -> moves appends (f n)) ->
  forall b n c x c', child_taken dn dv ds b n c x c' -> appends c c'.
Proof.
  intros W1 W2 b n c x c' H. destruct H; try apply appends_app.
  - specialize (W1 d n H c). now rewrite H3 in W1.
  - specialize (W1 d n H c). now rewrite H2 in W1.
  - specialize (W2 d n H0 c). now rewrite H1 in W2.
Qed.

Lemma values_for_in name : forall (ns : list (snode Sp)) (bs : list (became L)) i n x,
  nth_error ns i = Some n -> nth_error bs i = Some (Value_for x) -> name_of n = name ->
  In x (values_for name ns bs).
Proof.
  induction ns as [|m ns IH]; intros [|b bs] [|i] n x N B E; try discriminate; cbn [values_for].
  - injection N as ->. injection B as ->. rewrite E, text_eqb_refl. now left.
  - specialize (IH bs i n x N B E). destruct b; auto. destruct (text_eqb _ _); [now right|auto].
Qed.

Lemma firstn_in_name (ns : list (snode Sp)) j i m : nth_error ns j = Some m -> j < i ->
  In (name_of m) (map name_of (firstn i ns)).
Proof.
  intros N Lt. apply in_map. apply nth_error_In with j.
  rewrite <- N. rewrite <- (firstn_skipn i ns) at 2. rewrite nth_error_app1; [reflexivity|].
  assert (j < List.length ns) by (apply nth_error_Some; congruence).
  rewrite firstn_length. lia.
Qed.

Lemma same_name_child (ds : list (child Sp L)) d d' : NoDup (map ch_name ds) ->
  In d ds -> In d' ds -> ch_name d = ch_name d' -> d = d'.
Proof.
  intros ND I I' E. apply In_nth_error in I, I'. destruct I as [i N], I' as [i' N'].
  assert (i = i').
  { apply (nodup_nth _ ND i i' (ch_name d)); [|rewrite E]; now apply map_nth_error. }
  congruence.
Qed.

Lemma name_once dn dv (ds : list (child Sp L)) ns c bs c' :
  (forall d n, In d ds -> moves appends (dn d n)) ->
  (forall f n, dv = Some f -> moves appends (f n)) ->
  NoDup (map ch_name ds) ->
  in_turn (child_taken dn dv ds) [] ns c bs c' -> quiet c c' ->
  forall d i j n m, In d ds -> ch_mode d = CmNormal \/ ch_mode d = CmBool ->
  nth_error ns i = Some n -> nth_error ns j = Some m ->
  ch_name d = name_of n -> ch_name d = name_of m -> ~ i < j.
Proof.
  intros W1 W2 ND H Q d i j n m I Mo Ni Nj En Em Lt.
  destruct (in_turn_step _ (child_appends dn dv ds W1 W2) _ _ _ _ _ H Q j _ Nj)
    as (b & d1 & d2 & Nb & G & Qd).
  assert (Seen : In (name_of m) (map name_of (firstn j ns))).
  { rewrite <- Em, En. eapply firstn_in_name; eauto. }
  assert (Same : forall d', In d' ds -> ch_name d' = name_of m -> d' = d).
  { intros d' I' E'. eapply same_name_child; eauto. congruence. }
  inversion G as [n0 d0 c0 x c0' I0 E0 M0 Ne Gx|n0 d0 c0 x c0' I0 E0 M0 Gx|n0 d0 c0 I0 E0 M0 Ne
    |n0 d0 c0 I0 E0 M0 Ne|n0 d0 c0 x c0' Ne _ Gx|n0 c0 Ne _]; subst; cbn [app] in *.
  - contradiction.
  - rewrite (Same d0 I0 E0) in M0. destruct Mo; congruence.
  - contradiction.
  - apply with_errors_quiet, app_eq_nil in Qd. destruct Qd; discriminate.
  - apply Ne. rewrite <- Em. now apply in_map.
  - apply Ne. rewrite <- Em. now apply in_map.
Qed.

Lemma children_hand dn (nf : field Sp L -> option (field_attrs L) -> node_impl Sp (dval L)) var
    (ds : list (child Sp L)) ns c out c' (v : dval L) :
  (forall d n, In d ds -> moves appends (dn d n)) ->
  (forall f u n, var = Some (f, u) -> moves appends (nf f u n)) ->
  plain_children ds ->
  children_right dn (match var with Some (f, u) => Some (nf f u) | None => None end)
    ds ns c out c' -> quiet c c' ->
  all_hold v (map ch_field ds ++ map fst (lone var)) out ->
  forall n, In n ns ->
  (exists d x, In d ds /\ ch_name d = name_of n /\ ch_mode d = CmNormal
     /\ fine (dn d n) x /\ holds v (ch_field d) (stored d x)
     /\ List.length (filter (fun m => text_eqb (name_of m) (name_of n)) ns) = 1)
  \/ (exists d x xs, In d ds /\ ch_name d = name_of n /\ ch_mode d = CmMulti
     /\ fine (dn d n) x /\ In x xs
     /\ holds v (ch_field d) (if ch_option d then VSome (VList xs) else VList xs))
  \/ (exists d, In d ds /\ ch_name d = name_of n /\ ch_mode d = CmBool
     /\ flag_errors (s_value n) = [] /\ holds v (ch_field d) (VBool true)
     /\ List.length (filter (fun m => text_eqb (name_of m) (name_of n)) ns) = 1)
  \/ (exists f u x xs, var = Some (f, u) /\ ~ In (name_of n) (map ch_name ds)
     /\ fine (nf f u n) x /\ In x xs /\ holds v f (VList xs)).
Proof.
  intros W1 W2' [ND NF] (bs & xs & H1 & H2 & ->) Q AH n I.
  set (dv := match var with Some (f, u) => Some (nf f u) | None => None end) in *.
  assert (W2 : forall f n, dv = Some f -> moves appends (f n)).
  { intros f m E. subst dv. destruct var as [[g u]|]; [|discriminate]. injection E as <-.
    now apply W2'. }
  apply In_nth_error in I. destruct I as [i N].
  destruct (in_turn_step _ (child_appends dn dv ds W1 W2) _ _ _ _ _ H1 Q i _ N)
    as (b & d1 & d2 & Nb & G & Qd).
  assert (Hd : forall d, In d ds ->
    exists y, child_holds ns d (values_for (ch_name d) ns bs) y /\ holds v (ch_field d) y).
  { intros d Id. apply In_nth_error in Id. destruct Id as [k Nk].
    destruct (Forall2_nth _ _ _ H2 k d Nk) as (y & Ny & Hy).
    destruct (Forall2_nth _ _ _ AH k (ch_field d)) as (y' & Ny' & Hh).
    { rewrite nth_error_app1; [now apply map_nth_error|]. rewrite map_length.
      apply nth_error_Some. congruence. }
    rewrite nth_error_app1 in Ny' by (apply nth_error_Some; congruence).
    exists y. split; [exact Hy|congruence]. }
  assert (Once : forall d, In d ds -> ch_mode d = CmNormal \/ ch_mode d = CmBool ->
    ch_name d = name_of n -> List.length (filter (fun m => text_eqb (name_of m) (name_of n)) ns) = 1).
  { intros d Id Mo E. eapply only_one; [exact N|apply text_eqb_refl|].
    intros j m Nj Em. apply text_eqb_spec in Em.
    pose proof (name_once dn dv ds ns c bs c' W1 W2 ND H1 Q d) as U.
    assert (~ i < j) by (eapply (U i j n m); eauto; congruence).
    assert (~ j < i) by (eapply (U j i m n); eauto; congruence). lia. }
  inversion G as [n0 d0 c0 x c0' I0 E0 M0 Ne Gx|n0 d0 c0 x c0' I0 E0 M0 Gx|n0 d0 c0 I0 E0 M0 Ne
    |n0 d0 c0 I0 E0 M0 Ne|n0 d0 c0 x c0' Ne Ed Gx|n0 c0 Ne _]; subst; cbn [app] in *.
  - left. exists d0, x. split; [assumption|]. split; [assumption|]. split; [assumption|].
    split; [exists d1, d2; auto|]. split; [|eauto].
    destruct (Hd d0 I0) as (y & Hy & Hh).
    assert (V : In x (values_for (ch_name d0) ns bs)) by (eapply values_for_in; eauto).
    inversion Hy as [? M _|z M Ez|z M Ez _|M|z M|M]; try congruence.
    + rewrite Ez in V. destruct V as [->|[]]. unfold stored. subst y. exact Hh.
    + rewrite Ez in V. destruct V.
  - right. left. exists d0, x, (values_for (ch_name d0) ns bs).
    split; [assumption|]. split; [assumption|]. split; [assumption|].
    split; [exists d1, d2; auto|].
    assert (V : In x (values_for (ch_name d0) ns bs)) by (eapply values_for_in; eauto).
    split; [exact V|].
    destruct (Hd d0 I0) as (y & Hy & Hh).
    inversion Hy as [? M _|z M Ez|z M Ez _|M Nx E|z M Ez|M Ez]; try congruence;
      rewrite Ez in V; destruct V.
  - right. right. left. exists d0. split; [assumption|]. split; [assumption|]. split; [assumption|].
    apply with_errors_quiet in Qd. split; [exact Qd|]. split; [|eauto].
    destruct (Hd d0 I0) as (y & Hy & Hh).
    inversion Hy as [bb M Eb Ey|z M Ez|z M Ez _|M Nx E|z M Ez|M Ez]; try congruence.
    assert (bb = true).
    { apply Eb. rewrite E0. apply nth_error_In in N. now apply in_map. }
    subst. exact Hh.
  - exfalso. apply with_errors_quiet, app_eq_nil in Qd. destruct Qd; discriminate.
  - right. right. right. subst dv. destruct var as [[f u]|]; [|discriminate].
    injection Ed as <-. exists f, u, x, (rest_values bs). split; [reflexivity|].
    split; [assumption|]. split; [exists d1, d2; auto|]. split.
    + apply in_flat_map. exists (In_rest x). split; [|now left]. eapply nth_error_In, Nb.
    + destruct (Forall2_nth _ _ _ AH (List.length ds) f) as (y' & Ny' & Hh).
      { rewrite nth_error_app2; rewrite map_length; [|lia]. now rewrite Nat.sub_diag. }
      apply Forall2_len in H2. rewrite nth_error_app2 in Ny' by lia.
      rewrite H2, Nat.sub_diag in Ny'. injection Ny' as <-. exact Hh.
  - exfalso. apply with_errors_quiet in Qd. discriminate.
Qed.

End Parts.

(** ** Structs *)

Section Struct.
Context {Sp L : Type} (kebab : text -> text).
Variables (named : bool) (ident : text) (cont : list (attr L)) (fs : list (src_field Sp L))
  (d : derived Sp L).
Hypothesis Hd : decode_derive kebab (struct_item named ident cont fs) = Some d.
Hypothesis Pr : proper named fs.
Hypothesis Nn : ~ newtype named fs.
Hypothesis Ho : Forall (fun f => within appends (sf_impl f)) fs.

Lemma fields_within :
  Forall (fun f => within appends (f_impl f)) (special_fields fs)
  /\ Forall (fun f => within appends (f_impl f)) (argument_fields fs)
  /\ Forall (fun f => within appends (f_impl f)) (property_fields kebab fs)
  /\ Forall (fun f => within appends (f_impl f)) (child_fields kebab fs).
Proof.
  destruct (derived_struct _ _ _ _ _ _ Hd Pr Nn) as (s & S & _).
  pose proof (struct_new_within appends kebab _ _ _ _ S Ho) as W.
  unfold within_struct in W.
  rewrite (all_fields_parts kebab _ _ _ (proj1 (struct_new_filed _ _ _ _ S))) in W.
  rewrite !Forall_app in W. tauto.
Qed.

Lemma child_decoders_within :
  (forall x n, In x (the_children kebab fs) -> moves appends (child_fn kebab x n))
  /\ (forall f u n, the_var_children fs = Some (f, u) -> moves appends (node_fn kebab f u n)).
Proof.
  pose proof fields_within as (_ & _ & _ & W). unfold child_fields in W.
  rewrite Forall_app, !Forall_forall in W. destruct W as [W1 W2]. split.
  - intros x n I. unfold child_fn. apply adds_node_fn; [apply appends_onward|].
    apply W1, in_map, I.
  - intros f u n E. apply adds_node_fn; [apply appends_onward|]. apply W2. rewrite E. now left.
Qed.

Lemma special_appends spans names types (n : snode Sp) c (out : list (dval L)) c' :
  Forall (fun f => within appends (f_impl f)) spans ->
  special_right spans names types n c out c' -> appends c c'.
Proof.
  intros W (xs & ys & zs & H & _). revert W. induction H; intros W.
  - apply (on_refl _ appends_onward).
  - inversion W as [|? ? W1 W2]; subst. eapply (on_trans _ appends_onward); [|eauto].
    pose proof (wi_span _ _ W1 (s_span n) c) as M. rewrite H in M. exact M.
Qed.

Lemma node_hand n c c' v : plain_fields kebab fs -> NoDup (names_of (n_properties (s_value n))) ->
  dr_node d n c = (c', DOk v) -> c_errors c' = c_errors c ->
  (forall i a, nth_error (n_arguments (s_value n)) i = Some a -> arg_handed fs v i a)
  /\ (forall k a, In (k, a) (n_properties (s_value n)) -> prop_handed kebab fs v k a)
  /\ (forall m, In m (node_children (s_value n)) ->
        child_handed kebab fs v (node_children (s_value n)) m)
  /\ type_name_handed fs (s_value n).
Proof.
  intros PF NK H Q.
  destruct (node_right kebab _ _ _ _ _ Hd Pr Nn n c c' v PF NK H)
    as (ws & xs & ys & zs & (c1 & c2 & c3 & H1 & H2 & H3 & H4) & _ & _ & A2 & A3 & A4 & _).
  pose proof fields_within as (W1 & W2 & W3 & _).
  pose proof child_decoders_within as (W4 & W5).
  assert (W1' : Forall (fun f => within appends (f_impl f)) (flat_map spans_of (numbered fs))).
  { unfold special_fields in W1. rewrite Forall_app in W1. tauto. }
  pose proof (special_appends _ _ _ _ _ _ _ W1' H1) as P1.
  set (te := type_name_errors (flat_map type_names_of (numbered fs)) (s_value n)) in *.
  pose proof (appends_app c1 te) as P2.
  pose proof (args_appends _ _ _ _ _ _ W2 H2) as P3.
  assert (P4 : appends c2 c3).
  { destruct H3 as (ts & us & H3 & _). eapply in_turn_appends, H3. now apply prop_appends. }
  assert (P5 : appends c3 c').
  { destruct H4 as (bs & us & H4 & _). eapply in_turn_appends, H4. apply child_appends; auto.
    intros f m E. unfold rest_decoder in E. destruct (the_var_children fs) as [[g u]|]; [|discriminate].
    injection E as <-. now apply W5. }
  pose proof (on_trans _ appends_onward _ _ _ P4 P5) as P45.
  pose proof (on_trans _ appends_onward _ _ _ P3 P45) as P345.
  pose proof (on_trans _ appends_onward _ _ _ P2 P345) as P2345.
  destruct (appends_quiet _ _ _ P1 P2345 Q) as [_ Q1].
  destruct (appends_quiet _ _ _ P2 P345 Q1) as [Qt Q2].
  destruct (appends_quiet _ _ _ P3 P45 Q2) as [Qa Q3].
  destruct (appends_quiet _ _ _ P4 P5 Q3) as [Qp Qc].
  destruct PF as [PP PC].
  split; [|split; [|split]].
  - exact (args_hand _ _ _ _ _ _ v W2 H2 Qa A2).
  - exact (props_hand _ _ _ _ _ _ v W3 (proj1 PP) NK H3 Qp A3).
  - exact (children_hand _ (node_fn kebab) _ _ _ _ _ _ v W4 W5 PC H4 Qc A4).
  - apply with_errors_quiet in Qt. subst te. unfold type_name_errors in Qt. unfold type_name_handed.
    destruct (flat_map type_names_of (numbered fs)) as [|]; [|right; discriminate].
    left. destruct (n_type_name (s_value n)); [discriminate|reflexivity].
Qed.

Lemma document_hand f ns c c' v : plain_children (the_children kebab fs) ->
  dr_children d = Some f -> f ns c = (c', DOk v) -> c_errors c' = c_errors c ->
  forall m, In m ns -> child_handed kebab fs v ns m.
Proof.
  intros PC D H Q.
  destruct (document_right kebab _ _ _ _ _ Hd Pr Nn f ns c c' v PC D H) as (zs & H4 & _ & A4 & _).
  pose proof child_decoders_within as (W4 & W5).
  exact (children_hand _ (node_fn kebab) _ _ _ _ _ _ v W4 W5 PC H4 Q A4).
Qed.

(** ** Flattened fields *)

Definition took_prop (p : prop Sp L) (k : spanned text Sp) (a : value Sp) : Prop :=
  if pr_flatten p then
    exists x x', fine (ti_insert_property (f_impl (pr_field p)) x k a) (true, x')
  else
    pr_name p = s_value k
    /\ exists x, fine (decode_value (pr_decode p) (pr_option p) (f_impl (pr_field p)) a) x.

Definition flat_slot (p : prop Sp L) (sl : prop_slot L) : Prop :=
  match sl with PFlat _ => pr_flatten p = true | _ => pr_flatten p = false end.

Lemma prop_branches_took (ps : list (prop Sp L)) : forall slots k a c c' t slots',
  Forall (fun p => within appends (f_impl (pr_field p))) ps ->
  Forall2 flat_slot ps slots ->
  prop_branches ps slots k a c = (c', DOk (t, slots')) ->
  Forall2 flat_slot ps slots'
  /\ (t = true -> quiet c c' -> exists p, In p ps /\ took_prop p k a).
Proof.
  induction ps as [|p ps IH]; intros slots k a c c' t slots' W F H; cbn [prop_branches] in H.
  { apply d_ok_ok in H. destruct H as [_ H]. injection H as -> ->. split; [exact F|discriminate]. }
  inversion F as [|? sl ? slots0 Fp F0]; subst. inversion W as [|? ? Wp W0]; subst.
  assert (Tail : forall c1 x0, appends c c1 -> flat_slot p x0 ->
     d_map (fun '(t, ss) => (t, x0 :: ss)) (prop_branches ps slots0 k a) c1 = (c', DOk (t, slots')) ->
     Forall2 flat_slot (p :: ps) slots'
     /\ (t = true -> quiet c c' -> exists q, In q (p :: ps) /\ took_prop q k a)).
  { intros c1 x0 A Fx H'. apply d_map_ok in H'. destruct H' as ([t' ss] & H' & E).
    injection E as -> ->.
    assert (A' : appends c1 c').
    { assert (M : moves appends (prop_branches ps slots0 k a)).
      { apply adds_prop_branches; [apply appends_onward|]. now apply Forall_forall. }
      specialize (M c1). now rewrite H' in M. }
    destruct (IH slots0 k a c1 c' t' ss W0 F0 H') as (F' & K). split; [now constructor|].
    intros Et Q. destruct K as (q & I & K); [exact Et|now apply (appends_quiet c c1 c')|].
    exists q. split; [now right|exact K]. }
  assert (Here : flat_slot p sl -> pr_flatten p = false ->
     (if text_eqb (s_value k) (pr_name p) then
        d_map (fun x => (true, (if pr_option p then POption x true else PPlain (Some x)) :: slots0))
          (decode_value (pr_decode p) (pr_option p) (f_impl (pr_field p)) a)
      else d_map (fun '(t, ss) => (t, sl :: ss)) (prop_branches ps slots0 k a)) c
       = (c', DOk (t, slots')) ->
     Forall2 flat_slot (p :: ps) slots'
     /\ (t = true -> quiet c c' -> exists q, In q (p :: ps) /\ took_prop q k a)).
  { intros _ Ff H'. destruct (text_eqb (s_value k) (pr_name p)) eqn:E.
    - apply d_map_ok in H'. destruct H' as (x & H' & E'). injection E' as -> ->.
      apply text_eqb_spec in E. split.
      + constructor; [|exact F0]. unfold flat_slot. now destruct (pr_option p).
      + intros _ Q. exists p. split; [now left|]. unfold took_prop. rewrite Ff.
        split; [congruence|]. exists x, c, c'. auto.
    - eapply (Tail c sl); eauto. apply (on_refl _ appends_onward). }
  destruct sl as [x|x b|x]; cbn in Fp; auto.
  apply d_bind_ok in H. destruct H as ([t1 x'] & c1 & H1 & H).
  pose proof (wi_insert_property _ _ Wp x k a c) as A1. rewrite H1 in A1. cbn [fst] in A1.
  destruct t1.
  - apply d_ok_ok in H. destruct H as [-> H]. injection H as -> ->. split; [now constructor|].
    intros _ Q. exists p. split; [now left|]. unfold took_prop. rewrite Fp.
    exists x, x', c, c1. auto.
  - eapply (Tail c1 (PFlat x')); eauto.
Qed.

Lemma prop_loop_took (s : struct Sp L) : within_struct appends s ->
  forall kvs slots rest c c' out, Forall2 flat_slot (st_properties s) slots ->
  prop_loop s slots rest kvs c = (c', DOk out) -> quiet c c' ->
  forall k a, In (k, a) kvs ->
  (exists p, In p (st_properties s) /\ took_prop p k a)
  \/ (exists f m kk x, st_var_props s = Some (f, m)
     /\ ti_key_from_str (f_impl f) (s_value k) = inl kk
     /\ fine (decode_value m false (f_impl f) a) x).
Proof.
  intros Ws. pose proof (within_parts _ _ Ws) as (_ & _ & _ & W1 & W2 & _).
  assert (Loop : forall kvs slots rest, moves appends (prop_loop s slots rest kvs)).
  { induction kvs as [|[k v] kvs IH]; intros slots rest; cbn [prop_loop];
      [apply adds_ok, appends_onward|].
    apply adds_bind; [apply appends_onward|apply adds_prop_branches; auto using appends_onward|].
    intros [[|] slots']; [apply IH|].
    destruct (st_var_props s) as [[f m]|]; [|apply adds_err, appends_onward].
    apply adds_bind; [apply appends_onward|apply adds_convert, appends_onward|]. intros kk.
    apply adds_bind; [apply appends_onward|eapply value_moves, W2; reflexivity|]. intros x. apply IH. }
  induction kvs as [|[k0 a0] kvs IH]; intros slots rest c c' out F H Q k a I; [destruct I|].
  cbn [prop_loop] in H. apply d_bind_ok in H. destruct H as ([t slots1] & c1 & H1 & H).
  assert (A1 : appends c c1).
  { assert (M : moves appends (prop_branches (st_properties s) slots k0 a0))
      by (apply adds_prop_branches; auto using appends_onward).
    specialize (M c). now rewrite H1 in M. }
  destruct (prop_branches_took _ _ _ _ _ _ _ _ (proj2 (Forall_forall _ _) W1) F H1) as (F1 & T1).
  destruct t.
  - assert (A2 : appends c1 c') by (specialize (Loop kvs slots1 rest c1); now rewrite H in Loop).
    destruct (appends_quiet _ _ _ A1 A2 Q) as [Q1 Q2].
    destruct I as [I|I]; [injection I as -> ->; left; auto|eauto].
  - destruct (st_var_props s) as [[f m]|] eqn:V; [|apply d_err_ok in H; contradiction].
    apply d_bind_ok in H. destruct H as (kk & c2 & H2 & H).
    apply d_convert_ok in H2. destruct H2 as [-> H2].
    apply d_bind_ok in H. destruct H as (x & c3 & H3 & H).
    assert (A2 : appends c1 c3).
    { pose proof (value_moves m false (f_impl f) a0 (W2 f m eq_refl) c1) as M. now rewrite H3 in M. }
    assert (A3 : appends c3 c')
      by (specialize (Loop kvs slots1 (rest ++ [(kk, x)]) c3); now rewrite H in Loop).
    destruct (appends_quiet _ _ _ (on_trans _ appends_onward _ _ _ A1 A2) A3 Q) as [Q1 Q3].
    destruct (appends_quiet _ _ _ A1 A2 Q1) as [_ Q2].
    destruct I as [I|I]; [|eauto]. injection I as -> ->. right.
    exists f, m, kk, x. split; [reflexivity|]. split; [exact H2|]. exists c1, c3. auto.
Qed.

Definition took_child (x : child Sp L) (n : snode Sp) : Prop :=
  match ch_mode x with
  | CmFlatten => exists y y', fine (ti_insert_child (f_impl (ch_field x)) y n) (true, y')
  | CmBool => ch_name x = name_of n /\ flag_errors (s_value n) = []
  | _ => ch_name x = name_of n /\ exists y, fine (child_fn kebab x n) y
  end.

Definition same_slot (x : child Sp L) (sl : child_slot L) : Prop :=
  match sl, ch_mode x with
  | CFlat _, CmFlatten | CMulti _, CmMulti | CNormal _, CmNormal | CBool _, CmBool => True
  | _, _ => False
  end.

Lemma child_branches_took (ds : list (child Sp L)) : forall slots n c c' t slots',
  Forall (fun x => within appends (f_impl (ch_field x))) ds ->
  Forall2 same_slot ds slots ->
  child_branches (child_fn kebab) ds slots n c = (c', DOk (t, slots')) ->
  Forall2 same_slot ds slots'
  /\ (t = true -> quiet c c' -> exists x, In x ds /\ took_child x n).
Proof.
  induction ds as [|x ds IH]; intros slots n c c' t slots' W F H; cbn [child_branches] in H.
  { apply d_ok_ok in H. destruct H as [_ H]. injection H as -> ->. split; [exact F|discriminate]. }
  inversion F as [|? sl ? slots0 Fp F0]; subst. inversion W as [|? ? Wp W0]; subst.
  assert (Tail : forall c1 x0, appends c c1 -> same_slot x x0 ->
     d_map (fun '(t, ss) => (t, x0 :: ss)) (child_branches (child_fn kebab) ds slots0 n) c1
       = (c', DOk (t, slots')) ->
     Forall2 same_slot (x :: ds) slots'
     /\ (t = true -> quiet c c' -> exists q, In q (x :: ds) /\ took_child q n)).
  { intros c1 x0 A Fx H'. apply d_map_ok in H'. destruct H' as ([t' ss] & H' & E).
    injection E as -> ->.
    assert (A' : appends c1 c').
    { assert (M : moves appends (child_branches (child_fn kebab) ds slots0 n)).
      { rewrite Forall_forall in W0.
        apply adds_child_branches; [apply appends_onward|exact W0|]. intros y I.
        apply adds_node_fn; [apply appends_onward|]. now apply W0. }
      specialize (M c1). now rewrite H' in M. }
    destruct (IH slots0 n c1 c' t' ss W0 F0 H') as (F' & K). split; [now constructor|].
    intros Et Q. destruct K as (q & I & K); [exact Et|now apply (appends_quiet c c1 c')|].
    exists q. split; [now right|exact K]. }
  destruct sl as [y|ys|y|b]; unfold same_slot in Fp; destruct (ch_mode x) eqn:Mo; try contradiction.
  - apply d_bind_ok in H. destruct H as ([t1 y'] & c1 & H1 & H).
    pose proof (wi_insert_child _ _ Wp y n c) as A1. rewrite H1 in A1. cbn [fst] in A1.
    assert (Sx : same_slot x (CFlat y')) by (unfold same_slot; now rewrite Mo).
    destruct t1.
    + apply d_ok_ok in H. destruct H as [-> H]. injection H as -> ->. split; [now constructor|].
      intros _ Q. exists x. split; [now left|]. unfold took_child. rewrite Mo.
      exists y, y', c, c1. auto.
    + eapply (Tail c1 (CFlat y')); eauto.
  - destruct (text_eqb _ _) eqn:E.
    + apply d_map_ok in H. destruct H as (z & H & E'). injection E' as -> ->.
      apply text_eqb_spec in E. split.
      * constructor; [|exact F0]. unfold same_slot. now rewrite Mo.
      * intros _ Q. exists x. split; [now left|]. unfold took_child. rewrite Mo.
        split; [symmetry; exact E|]. exists z, c, c'. auto.
    + eapply (Tail c (CMulti ys)); eauto; [apply (on_refl _ appends_onward)|].
      unfold same_slot. now rewrite Mo.
  - destruct (text_eqb _ _) eqn:E.
    + destruct y; [apply d_err_ok in H; contradiction|].
      apply d_map_ok in H. destruct H as (z & H & E'). injection E' as -> ->.
      apply text_eqb_spec in E. split.
      * constructor; [|exact F0]. unfold same_slot. now rewrite Mo.
      * intros _ Q. exists x. split; [now left|]. unfold took_child. rewrite Mo.
        split; [symmetry; exact E|]. exists z, c, c'. auto.
    + eapply (Tail c (CNormal y)); eauto; [apply (on_refl _ appends_onward)|].
      unfold same_slot. now rewrite Mo.
  - destruct (text_eqb _ _) eqn:E.
    + apply text_eqb_spec in E. rewrite flag_node in H.
      assert (Sx : forall b, same_slot x (CBool b)) by (intros; unfold same_slot; now rewrite Mo).
      destruct b.
      * injection H as <- <- <-. split; [now constructor|]. intros _ Q. exfalso.
        unfold quiet in Q. cbn in Q. rewrite <- app_assoc in Q.
        rewrite <- (app_nil_r (c_errors c)) in Q at 2.
        apply app_inv_head, app_eq_nil in Q. destruct Q. discriminate.
      * injection H as <- <- <-. split; [now constructor|]. intros _ Q. exists x.
        split; [now left|]. unfold took_child. rewrite Mo. split; [symmetry; exact E|].
        unfold quiet in Q. cbn in Q. rewrite <- (app_nil_r (c_errors c)) in Q at 2.
        now apply app_inv_head in Q.
    + eapply (Tail c (CBool b)); eauto; [apply (on_refl _ appends_onward)|].
      unfold same_slot. now rewrite Mo.
Qed.

Lemma child_loop_took (s : struct Sp L) : within_struct appends s ->
  forall ns slots rest c c' out, Forall2 same_slot (st_children s) slots ->
  child_loop (child_fn kebab) (var_child_fn kebab s) (st_children s) slots rest ns c
    = (c', DOk out) -> quiet c c' ->
  forall n, In n ns ->
  (exists x, In x (st_children s) /\ took_child x n)
  \/ (exists f u y, st_var_children s = Some (f, u) /\ fine (node_fn kebab f u n) y).
Proof.
  intros Ws. pose proof (within_parts _ _ Ws) as (_ & _ & _ & _ & _ & W1 & W2).
  assert (Br : forall slots n, moves appends
      (child_branches (child_fn kebab) (st_children s) slots n)).
  { intros slots n. apply adds_child_branches; [apply appends_onward|exact W1|]. intros y I.
    apply adds_node_fn; [apply appends_onward|auto]. }
  assert (Va : forall f u n, st_var_children s = Some (f, u) -> moves appends (node_fn kebab f u n)).
  { intros f u n E. apply adds_node_fn; [apply appends_onward|eauto]. }
  assert (Loop : forall ns slots rest, moves appends
    (child_loop (child_fn kebab) (var_child_fn kebab s) (st_children s) slots rest ns)).
  { induction ns as [|n ns IH]; intros slots rest; cbn [child_loop];
      [apply adds_ok, appends_onward|].
    apply adds_bind; [apply appends_onward|apply Br|].
    intros [[|] slots']; [apply IH|]. unfold var_child_fn in *.
    destruct (st_var_children s) as [[f u]|].
    - apply adds_bind; [apply appends_onward|now apply Va|]. intros y. apply IH.
    - apply adds_bind; [apply appends_onward|apply adds_emit, appends_onward|]. intros y. apply IH. }
  induction ns as [|n0 ns IH]; intros slots rest c c' out F H Q n I; [destruct I|].
  cbn [child_loop] in H. apply d_bind_ok in H. destruct H as ([t slots1] & c1 & H1 & H).
  assert (A1 : appends c c1) by (specialize (Br slots n0 c); now rewrite H1 in Br).
  destruct (child_branches_took _ _ _ _ _ _ _ (proj2 (Forall_forall _ _) W1) F H1) as (F1 & T1).
  destruct t.
  - assert (A2 : appends c1 c') by (specialize (Loop ns slots1 rest c1); now rewrite H in Loop).
    destruct (appends_quiet _ _ _ A1 A2 Q) as [Q1 Q2].
    destruct I as [I|I]; [subst; left; auto|eauto].
  - unfold var_child_fn in *. destruct (st_var_children s) as [[f u]|] eqn:V.
    + apply d_bind_ok in H. destruct H as (y & c3 & H3 & H).
      assert (A2 : appends c1 c3).
      { pose proof (Va f u n0 eq_refl c1) as M. now rewrite H3 in M. }
      assert (A3 : appends c3 c')
        by (specialize (Loop ns slots1 (rest ++ [y]) c3); now rewrite H in Loop).
      destruct (appends_quiet _ _ _ (on_trans _ appends_onward _ _ _ A1 A2) A3 Q) as [Q1 Q3].
      destruct (appends_quiet _ _ _ A1 A2 Q1) as [_ Q2].
      destruct I as [I|I]; [|eauto]. subst. right.
      exists f, u, y. split; [reflexivity|]. exists c1, c3. auto.
    + exfalso. apply d_bind_ok in H. destruct H as (y & c3 & H3 & H).
      apply d_emit_ok in H3. subst c3.
      assert (A3 : appends (with_errors c1 [unexpected_node n0]) c')
        by (specialize (Loop ns slots1 rest (with_errors c1 [unexpected_node n0])); now rewrite H in Loop).
      pose proof (appends_app c1 [unexpected_node n0]) as A2.
      destruct (appends_quiet _ _ _ A1 (on_trans _ appends_onward _ _ _ A2 A3) Q) as [_ Q2].
      destruct (appends_quiet _ _ _ A2 A3 Q2) as [Q3 _].
      apply with_errors_quiet in Q3. discriminate.
Qed.

Lemma start_flat (s : struct Sp L) : Forall2 flat_slot (st_properties s) (map prop_start (st_properties s)).
Proof.
  apply Forall2_map_self, Forall_forall. intros p _. unfold flat_slot, prop_start.
  destruct (pr_flatten p); [reflexivity|]. now destruct (pr_option p).
Qed.

Lemma start_same (s : struct Sp L) : Forall2 same_slot (st_children s) (map child_start (st_children s)).
Proof.
  apply Forall2_map_self, Forall_forall. intros p _. unfold same_slot, child_start.
  now destruct (ch_mode p).
Qed.

Lemma struct_children_took (s : struct Sp L) es ns c c' zs : within_struct appends s ->
  struct_new kebab ident fs = inl (s, []) ->
  struct_children kebab s es ns c = (c', DOk zs) -> quiet c c' ->
  forall n, In n ns -> child_took kebab fs n.
Proof.
  intros Ws S H Q n I. pose proof (proj1 (struct_new_filed kebab ident fs s S)) as F.
  unfold struct_children, decode_children in H. apply d_bind_ok in H.
  destruct H as ([slots rest] & c1 & H1 & H). apply d_map_ok in H. destruct H as (us & H & _).
  assert (A1 : appends c c1).
  { pose proof (within_parts _ _ Ws) as (_ & _ & _ & _ & _ & W1 & W2). revert H1.
    generalize (map child_start (st_children s)), (@nil (dval L)). clear - W1 W2.
    revert c. induction ns as [|n ns IH]; intros c sl l H; cbn [child_loop] in H.
    - apply d_ok_ok in H. destruct H as [-> _]. apply (on_refl _ appends_onward).
    - apply d_bind_ok in H. destruct H as ([t slots1] & c2 & H1 & H).
      eapply (on_trans _ appends_onward).
      { assert (M : moves appends (child_branches (child_fn kebab) (st_children s) sl n)).
        { apply adds_child_branches; [apply appends_onward|exact W1|]. intros y I.
          apply adds_node_fn; [apply appends_onward|auto]. }
        specialize (M c). rewrite H1 in M. exact M. }
      destruct t; [eauto|]. unfold var_child_fn in *.
      destruct (st_var_children s) as [[f u]|]; apply d_bind_ok in H;
        destruct H as (y & c3 & H3 & H); (eapply (on_trans _ appends_onward); [|eapply IH, H]).
      + assert (M : moves appends (node_fn kebab f u n))
          by (apply adds_node_fn; [apply appends_onward|eauto]).
        specialize (M c2). now rewrite H3 in M.
      + apply d_emit_ok in H3. subst c3. apply appends_app. }
  assert (A2 : appends c1 c').
  { apply (d_collect_ok _ _ []) in H. eapply in_turn_appends, H. intros b [x sl] e y e' G.
    unfold gives in G. pose proof (f_equal fst G) as E. cbn [fst] in E. rewrite <- E.
    unfold child_finish. destruct sl, (ch_default x), (ch_option x); try destruct v;
      try destruct vs; apply (on_refl _ appends_onward). }
  destruct (appends_quiet _ _ _ A1 A2 Q) as [Q1 _].
  destruct (child_loop_took s Ws _ _ _ _ _ _ (start_same s) H1 Q1 n I) as [K|K].
  - left. unfold the_children. rewrite <- (fi_children _ _ _ _ F). exact K.
  - right. rewrite (struct_var_children _ _ _ _ F). exact K.
Qed.

Lemma node_took n c c' v : dr_node d n c = (c', DOk v) -> c_errors c' = c_errors c ->
  (forall i a, nth_error (n_arguments (s_value n)) i = Some a -> arg_handed fs v i a)
  /\ (forall k a, In (k, a) (n_properties (s_value n)) -> prop_took kebab fs k a)
  /\ (forall m, In m (node_children (s_value n)) -> child_took kebab fs m)
  /\ type_name_handed fs (s_value n).
Proof.
  intros H Q. destruct (node_value kebab _ _ _ _ _ Hd Pr Nn n c c' v H)
    as (s & ws & xs & ys & zs & c1 & c2 & c3 & S & H1 & H2 & H3 & H4 & _ & _ & A2 & _).
  pose proof (proj1 (struct_new_filed kebab ident fs s S)) as F.
  pose proof (struct_new_within appends kebab _ _ _ _ S Ho) as Ws.
  assert (P1 : appends c c1).
  { pose proof (adds_specials appends appends_onward s n Ws c) as M. now rewrite H1 in M. }
  assert (P2 : appends c1 c2).
  { pose proof (adds_args appends appends_onward s n Ws c1) as M. now rewrite H2 in M. }
  assert (P3 : appends c2 c3).
  { pose proof (adds_props appends appends_onward s n Ws c2) as M. now rewrite H3 in M. }
  assert (P4 : appends c3 c').
  { pose proof (adds_struct_children appends appends_onward kebab s (Some (s_span n))
      (node_children (s_value n)) Ws c3) as M. now rewrite H4 in M. }
  pose proof (on_trans _ appends_onward _ _ _ P3 P4) as P34.
  pose proof (on_trans _ appends_onward _ _ _ P2 P34) as P234.
  destruct (appends_quiet _ _ _ P1 P234 Q) as [Q1 Q234].
  destruct (appends_quiet _ _ _ P2 P34 Q234) as [Q2 Q34].
  destruct (appends_quiet _ _ _ P3 P4 Q34) as [Q3 Q4].
  split; [|split; [|split]].
  - pose proof fields_within as (_ & W2 & _).
    apply decode_args_ok in H2. rewrite <- (struct_var_args _ _ _ _ F) in H2.
    rewrite (fi_arguments _ _ _ _ F) in H2.
    exact (args_hand _ _ _ _ _ _ v W2 H2 Q2 A2).
  - intros k a I. unfold decode_props in H3. apply d_bind_ok in H3.
    destruct H3 as ([slots rest] & c4 & H3 & H5).
    assert (E : c4 = c3).
    { apply d_map_ok in H5. destruct H5 as (us & H5 & _). clear - H5.
      apply (d_collect_ok _ _ []) in H5. induction H5; [reflexivity|]. rewrite <- IHin_turn.
      destruct x as [p sl]. unfold gives, prop_finish in H.
      repeat match type of H with
      | context [match ?x with _ => _ end] => destruct x
      end; first [apply d_ok_ok in H; destruct H; congruence|apply d_err_ok in H; contradiction]. }
    subst c4.
    destruct (prop_loop_took s Ws _ _ _ _ _ _ (start_flat s) H3 Q3 k a I) as [K|K].
    + left. unfold the_properties. rewrite <- (fi_properties _ _ _ _ F). exact K.
    + right. rewrite (struct_var_props _ _ _ _ F). exact K.
  - exact (struct_children_took s _ _ _ _ _ Ws S H4 Q4).
  - apply decode_specials_ok in H1. destruct H1 as (c0 & H1 & E). subst c1.
    assert (W1' : Forall (fun f => within appends (f_impl f)) (st_spans s)).
    { pose proof (within_parts _ _ Ws) as (W1 & _). now apply Forall_forall. }
    pose proof (special_appends _ _ _ _ _ _ _ W1' H1) as R1.
    destruct (appends_quiet _ _ _ R1 (appends_app _ _) Q1) as [_ Qt].
    apply with_errors_quiet in Qt. rewrite (fi_type_names _ _ _ _ F) in Qt.
    unfold type_name_errors in Qt. unfold type_name_handed.
    destruct (flat_map type_names_of (numbered fs)) as [|]; [|right; discriminate].
    left. destruct (n_type_name (s_value n)); [discriminate|reflexivity].
Qed.

Lemma document_took f ns c c' v : dr_children d = Some f ->
  f ns c = (c', DOk v) -> c_errors c' = c_errors c ->
  forall m, In m ns -> child_took kebab fs m.
Proof.
  intros D H Q.
  destruct (document_value kebab _ _ _ _ _ Hd Pr Nn f ns c c' v D H) as (s & zs & S & H4 & _).
  pose proof (struct_new_within appends kebab _ _ _ _ S Ho) as Ws.
  exact (struct_children_took s _ _ _ _ _ Ws S H4 Q).
Qed.

End Struct.
