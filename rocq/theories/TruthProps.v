(** The errors of derived decoders say what is so. *)

From Coq Require Import NArith Arith List Bool String Lia.
From Verif Require Import Chars Ast Errors Kdl Chumsky Spans Grammar Decode Containers DecodeSpec DecodeProps DeriveDef Derive
  DeriveSpec DeriveProps FieldSpec FieldProps StructSpec StructProps HonestProps HandSpec HandProps UnwrapSpec
  UnwrapProps MissProps PointSpec PointProps PointParse TruthSpec ScalarProps.
Import ListNotations.

(** [reports], together with a fact about the value. *)
Definition yields {Sp A} (E : derror Sp -> Prop) (Q : A -> Prop) (m : dec Sp A) : Prop :=
  reports E m /\ forall c a, snd (m c) = DOk a -> Q a.

Section Yields.
Context {Sp : Type} (E : derror Sp -> Prop).

Lemma y_reports {A} Q (m : dec Sp A) : yields E Q m -> reports E m.
Proof. now intros [H _]. Qed.

Lemma y_any {A} (m : dec Sp A) : reports E m -> yields E (fun _ => True) m.
Proof. now split. Qed.

Lemma y_ok {A} (Q : A -> Prop) a : Q a -> yields E Q (d_ok a).
Proof. intros H. split; [apply says_ok|]. intros c b K. now injection K as <-. Qed.

Lemma y_err {A} (Q : A -> Prop) e : E e -> yields E Q (d_err e).
Proof. intros H. split; [now apply says_err|discriminate]. Qed.

Lemma y_bind {A B} (Q : A -> Prop) (Q' : B -> Prop) (m : dec Sp A) f :
  yields E Q m -> (forall a, Q a -> yields E Q' (f a)) -> yields E Q' (d_bind m f).
Proof.
  intros [M W] F. split.
  - apply says_then with (Q := Q); auto. intros a H. now apply F.
  - intros c b. specialize (W c). unfold d_bind. destruct (m c) as [c1 [a|e|]]; try discriminate.
    apply (F a (W a eq_refl)).
Qed.

Lemma y_map {A B} (Q : A -> Prop) (Q' : B -> Prop) (m : dec Sp A) f :
  yields E Q m -> (forall a, Q a -> Q' (f a)) -> yields E Q' (d_map f m).
Proof. intros M F. apply y_bind with (Q := Q); auto. intros a H. now apply y_ok, F. Qed.

End Yields.

Lemma may_reports {Sp A} (m : dec Sp A) : moves appends m -> reports (may_report m) m.
Proof.
  intros H c. destruct (H c) as (es & K). split.
  - exists es. split; [exact K|]. rewrite Forall_forall. intros e I. exists c. right. eauto.
  - intros e J. exists c. now left.
Qed.

Lemma may_reports' {Sp A} (E : derror Sp -> Prop) (m : dec Sp A) : moves appends m ->
  (forall e, may_report m e -> E e) -> reports E m.
Proof. intros H K. eapply reports_mono; [apply K|now apply may_reports]. Qed.

Section Parts.
Context {Sp L : Type}.

(** ** Special fields *)

Lemma specials_true (s : struct Sp L) (n : snode Sp) :
  (forall f, In f (st_spans s) -> within appends (f_impl f)) ->
  reports (special_error (st_spans s) (st_node_names s) (st_type_names s) n) (decode_specials s n).
Proof.
  intros W. unfold decode_specials.
  apply says_bind.
  { apply says_collect. intros f I. apply may_reports'.
    - intros c. unfold special_span. pose proof (wi_span _ _ (W f I) (s_span n) c) as H.
      now destruct (ti_span (f_impl f) (s_span n) c).
    - intros e M. eapply SE_span; eauto. }
  intros spans. apply says_bind.
  { apply says_collect. intros f I. unfold special_node_name, d_convert.
    destruct (ti_from_str _ _) eqn:F; [apply says_ok|apply says_err].
    eapply SE_node_name; eauto. }
  intros names. apply says_bind.
  { apply says_collect. intros [f o] I. unfold special_type_name.
    destruct (n_type_name (s_value n)) as [ty|] eqn:T.
    - unfold d_convert. destruct (ti_from_str _ _) as [x|why] eqn:F.
      + destruct o; [apply says_map|]; apply says_ok.
      + assert (R : reports (special_error (st_spans s) (st_node_names s) (st_type_names s) n)
                      (d_err (A := dval L) (conversion ty why))).
        { apply says_err. eapply SE_type_name; eauto. }
        destruct o; [now apply says_map|exact R].
    - destruct o; [apply says_ok|apply says_err]. eapply SE_no_type_name; eauto. }
  intros types. apply says_bind.
  { destruct (st_type_names s) as [|p l] eqn:T; [|apply says_ok].
    destruct (n_type_name (s_value n)) as [ty|] eqn:N; [|apply says_ok].
    apply says_emit. now apply SE_unknown_type_name. }
  intros _. apply says_ok.
Qed.

(** ** Arguments *)

Lemma skipn_after {A} (x : A) : forall i l l', skipn i l = x :: l' -> l' = skipn (S i) l.
Proof.
  induction i as [|i IH]; intros [|y l] l' H; try discriminate.
  - injection H as _ <-. reflexivity.
  - cbn [skipn] in H. now apply IH in H.
Qed.

Lemma nth_after {A} : forall i j (l : list A), nth_error (skipn i l) j = nth_error l (i + j).
Proof.
  induction i as [|i IH]; intros j [|x l]; cbn [skipn]; auto; [now destruct j|]. apply IH.
Qed.

Section Args.
Variables (args : list (arg Sp L)) (var : option (field Sp L * decode_mode)) (n : snode Sp).
Notation given := (n_arguments (s_value n)).
Hypothesis W : forall a, In a args -> within appends (f_impl (ar_field a)).
Hypothesis WV : forall f m, var = Some (f, m) -> within appends (f_impl f).

Lemma arg_message_right (a : arg Sp L) : arg_required a = argument_message a.
Proof.
  unfold arg_required, argument_message, is_indexed, tmp_name. now destruct (f_attr (ar_field a)).
Qed.

Lemma arg_fields_true : forall l pre, args = pre ++ l ->
  yields (argument_error args var n) (fun p => snd p = skipn (List.length args) given)
    (arg_fields n l (skipn (List.length pre) given)).
Proof.
  induction l as [|a l IH]; intros pre K; cbn [arg_fields].
  - apply y_ok. cbn [snd]. rewrite K, app_nil_r. reflexivity.
  - assert (Na : nth_error args (List.length pre) = Some a).
    { rewrite K, nth_error_app2 by lia. now rewrite Nat.sub_diag. }
    assert (Ia : In a args) by (eapply nth_error_In; eauto).
    assert (K' : args = (pre ++ [a]) ++ l) by (rewrite <- app_assoc; exact K).
    specialize (IH _ K'). rewrite app_length, Nat.add_1_r in IH.
    apply y_bind with (Q := fun p => snd p = skipn (S (List.length pre)) given).
    + destruct (skipn (List.length pre) given) as [|v it] eqn:S.
      * assert (Le : List.length given <= List.length pre).
        { pose proof (skipn_length (List.length pre) given) as Q. rewrite S in Q. cbn in Q. lia. }
        assert (S' : @nil (value Sp) = skipn (Datatypes.S (List.length pre)) given).
        { symmetry. apply skipn_all2. lia. }
        destruct (ar_default a) eqn:D; [now apply y_ok|].
        destruct (ar_kind_option a) eqn:O; [now apply y_ok|]. apply y_err.
        unfold missing. rewrite arg_message_right. eapply AE_missing; eauto.
      * assert (Nv : nth_error given (List.length pre) = Some v).
        { rewrite <- (firstn_skipn (List.length pre) given), S.
          assert (Lt : List.length (firstn (List.length pre) given) = List.length pre).
          { pose proof (skipn_length (List.length pre) given) as Q. rewrite S in Q. cbn in Q.
            rewrite firstn_length. lia. }
          rewrite nth_error_app2 by lia. now rewrite Lt, Nat.sub_diag. }
        assert (S' : it = skipn (Datatypes.S (List.length pre)) given).
        { now apply skipn_after in S. }
        apply y_map with (Q := fun _ => True); [|auto]. apply y_any.
        apply may_reports'; [apply value_moves, W, Ia|].
        intros e M. eapply AE_value; eauto.
    + intros [x it'] R. cbn [snd] in R. subst it'.
      eapply y_map; [exact IH|]. intros [xs it'']. auto.
Qed.

End Args.

Lemma args_true (s : struct Sp L) (n : snode Sp) :
  (forall a, In a (st_arguments s) -> within appends (f_impl (ar_field a))) ->
  (forall f m, st_var_args s = Some (f, m) -> within appends (f_impl f)) ->
  reports (argument_error (st_arguments s) (st_var_args s) n) (decode_args s n).
Proof.
  intros W WV. unfold decode_args.
  pose proof (arg_fields_true (st_arguments s) (st_var_args s) n W (st_arguments s) [] eq_refl) as [H1 H2].
  eapply says_then; [exact H1|exact H2|]. intros [xs it] R. cbn [snd] in R.
  destruct (st_var_args s) as [[f m]|] eqn:V.
  - apply says_map, says_collect. intros v I. rewrite R in I.
    apply In_nth_error in I. destruct I as [j J].
    rewrite nth_after in J.
    apply may_reports'; [apply value_moves; eauto|]. intros e M.
    eapply AE_rest; [reflexivity| |exact J|exact M]. lia.
  - destruct it as [|v it]; [apply says_ok|]. apply says_err. apply AE_surplus; [reflexivity|].
    assert (Lt : List.length (firstn (List.length (st_arguments s)) (n_arguments (s_value n)))
                 = List.length (st_arguments s)).
    { pose proof (skipn_length (List.length (st_arguments s)) (n_arguments (s_value n))) as Q.
      rewrite <- R in Q. cbn in Q. rewrite firstn_length. lia. }
    rewrite <- (firstn_skipn (List.length (st_arguments s)) (n_arguments (s_value n))), <- R.
    rewrite nth_error_app2 by lia. now rewrite Lt, Nat.sub_diag.
Qed.

(** ** Properties *)

Section Props.
Variables (ps : list (prop Sp L)) (var : option (field Sp L * decode_mode)) (n : snode Sp).
Notation all := (n_properties (s_value n)).
Hypothesis W : forall p, In p ps -> within appends (f_impl (pr_field p)).
Hypothesis PP : plain_props ps.

(** What the variable of a field says about the properties so far. *)
Definition prop_knows (before : list (spanned text Sp * value Sp)) (p : prop Sp L)
    (sl : prop_slot L) : Prop :=
  match sl with
  | PFlat _ => False
  | POption _ _ => True
  | PPlain (Some _) => True
  | PPlain None => pr_option p = false /\ ~ In (pr_name p) (names_of before)
  end.

Lemma knows_other before k v p sl : s_value k <> pr_name p -> prop_knows before p sl ->
  prop_knows (before ++ [(k, v)]) p sl.
Proof.
  intros N. unfold prop_knows, names_of. destruct sl as [| |[]]; auto. intros [H K]. split; [exact H|].
  rewrite map_app, in_app_iff. cbn. intros [?|[?|[]]]; auto.
Qed.

Lemma knows_others before k v l : ~ In (s_value k) (map pr_name l) -> forall slots,
  Forall2 (prop_knows before) l slots -> Forall2 (prop_knows (before ++ [(k, v)])) l slots.
Proof.
  induction l as [|p l IH]; intros N slots F; inversion F; subst; constructor.
  - apply knows_other; auto. intros Q. apply N. now left.
  - apply IH; auto. intros I. apply N. now right.
Qed.

Lemma branches_true before k v : In (k, v) all -> forall l slots, incl l ps -> NoDup (map pr_name l) ->
  Forall2 (prop_knows before) l slots ->
  yields (property_error ps var n)
    (fun r => Forall2 (prop_knows (before ++ [(k, v)])) l (snd r)
              /\ (fst r = false -> ~ In (s_value k) (map pr_name l)))
    (prop_branches l slots k v).
Proof.
  intros I. induction l as [|p l IH]; intros slots In_ ND F; inversion F as [|? sl ? slots' K F']; subst;
    cbn [prop_branches].
  - apply y_ok. split; [constructor|]. intros _ [].
  - assert (Ip : In p ps) by (apply In_; now left).
    assert (Il : incl l ps) by (intros q J; apply In_; now right).
    cbn [map] in ND. inversion ND as [|? ? N1 N2]; subst.
    assert (T : forall sl', prop_knows before p sl' ->
      s_value k <> pr_name p ->
      yields (property_error ps var n)
        (fun r => Forall2 (prop_knows (before ++ [(k, v)])) (p :: l) (snd r)
              /\ (fst r = false -> ~ In (s_value k) (map pr_name (p :: l))))
        (d_map (fun '(t, ss) => (t, sl' :: ss)) (prop_branches l slots' k v))).
    { intros sl' Ks Ne. eapply y_map; [apply (IH slots' Il N2 F')|].
      intros [t ss] [H1 H2]. cbn [fst snd] in *. split.
      - constructor; [now apply knows_other|exact H1].
      - intros Tf [Q|J]; [congruence|]. now apply H2. }
    assert (B : s_value k = pr_name p ->
      yields (property_error ps var n)
        (fun r => Forall2 (prop_knows (before ++ [(k, v)])) (p :: l) (snd r)
              /\ (fst r = false -> ~ In (s_value k) (map pr_name (p :: l))))
        (d_map (fun x => (true, (if pr_option p then POption x true else PPlain (Some x)) :: slots'))
           (decode_value (pr_decode p) (pr_option p) (f_impl (pr_field p)) v))).
    { intros Q. apply y_map with (Q := fun _ => True).
      - apply y_any, may_reports'; [now apply value_moves, W|]. intros e M. eapply PE_value; eauto.
      - intros x _. cbn [fst snd]. split; [|discriminate]. constructor.
        + now destruct (pr_option p).
        + apply knows_others; auto. now rewrite Q. }
    destruct sl as [x|x b|x]; [destruct K| |];
      (destruct (text_eqb_reflect (s_value k) (pr_name p)) as [Q|Q]; [now apply B|now apply T]).
Qed.

Hypothesis WV : forall f m, var = Some (f, m) -> within appends (f_impl f).
Variable s : struct Sp L.
Hypothesis Sp_ : st_properties s = ps.
Hypothesis Sv : st_var_props s = var.

Lemma prop_loop_true : forall kvs before slots rest, all = before ++ kvs ->
  Forall2 (prop_knows before) ps slots ->
  yields (property_error ps var n) (fun r => Forall2 (prop_knows all) ps (fst r))
    (prop_loop s slots rest kvs).
Proof.
  induction kvs as [|[k v] kvs IH]; intros before slots rest Al F; cbn [prop_loop].
  - apply y_ok. rewrite Al, app_nil_r. exact F.
  - assert (Al' : all = (before ++ [(k, v)]) ++ kvs) by (rewrite <- app_assoc; exact Al).
    assert (I : In (k, v) all) by (rewrite Al; apply in_or_app; right; now left).
    rewrite Sp_. eapply y_bind.
    + apply (branches_true before k v I ps slots (incl_refl _) (proj1 PP) F).
    + intros [t slots'] [H1 H2]. cbn [fst snd] in *. destruct t; [eapply IH; eauto|].
      specialize (H2 eq_refl). rewrite Sv. destruct var as [[f m]|] eqn:V.
      * apply y_bind with (Q := fun _ => True).
        { apply y_any. unfold d_convert. destruct (ti_key_from_str _ _) eqn:Ke; [apply says_ok|].
          apply says_err. eapply PE_key; eauto. }
        intros kk _. apply y_bind with (Q := fun _ => True).
        { apply y_any, may_reports'; [apply value_moves; eauto|]. intros e M. eapply PE_rest; eauto. }
        intros x _. eapply IH; eauto.
      * apply y_err. pose proof (PE_unknown ps None n k v eq_refl I H2) as E.
        unfold unexpected_prop, unexpected, backquoted. rewrite <- app_assoc in *. exact E.
Qed.

Lemma props_true : reports (property_error ps var n) (decode_props s n).
Proof.
  unfold decode_props. rewrite Sp_.
  assert (St : Forall2 (prop_knows []) ps (map prop_start ps)).
  { destruct PP as [_ F]. clear -F. induction F as [|p l Hp F IH]; constructor; auto.
    unfold prop_start. rewrite Hp. destruct (pr_option p) eqn:O; cbn; auto. }
  destruct (prop_loop_true all [] (map prop_start ps) [] eq_refl St) as [H1 H2].
  eapply says_then; [exact H1|exact H2|]. intros [slots rest] F. cbn [fst] in F.
  apply says_map, says_collect. intros [p sl] I.
  assert (G : In p ps /\ prop_knows all p sl).
  { clear -F I. induction F as [|p' sl' ps' slots' K F IH]; [destruct I|]. cbn in I.
    destruct I as [Q|I]; [injection Q as -> ->; split; [now left|exact K]|].
    destruct (IH I). split; [now right|assumption]. }
  destruct G as [Ip K]. unfold prop_finish. destruct sl as [x|x b|[x|]]; [destruct K| | |].
  - destruct (pr_default p); apply says_ok.
  - apply says_ok.
  - destruct K as [O N]. destruct (pr_default p) eqn:D; [apply says_ok|]. apply says_err.
    now apply PE_missing.
Qed.

End Props.

(** ** Children *)

Section Children.
Variables (dn : child Sp L -> node_impl Sp (dval L)) (dv : option (node_impl Sp (dval L)))
  (ds : list (child Sp L)) (place : option Sp) (all : list (snode Sp)).
Hypothesis W : forall d n, In d ds -> moves appends (dn d n).
Hypothesis WV : forall f n, dv = Some f -> moves appends (f n).
Hypothesis PC : plain_children ds.

Definition child_knows (before : list (snode Sp)) (d : child Sp L) (sl : child_slot L) : Prop :=
  match sl with
  | CFlat _ => False
  | CMulti _ => ch_mode d = CmMulti
  | CNormal None => ch_mode d = CmNormal /\ ~ In (ch_name d) (map name_of before)
  | CNormal (Some _) => ch_mode d = CmNormal /\ In (ch_name d) (map name_of before)
  | CBool b => ch_mode d = CmBool /\ (b = true -> In (ch_name d) (map name_of before))
  end.

Lemma child_knows_other before m d sl : name_of m <> ch_name d -> child_knows before d sl ->
  child_knows (before ++ [m]) d sl.
Proof.
  intros N. unfold child_knows. rewrite map_app.
  destruct sl as [| |[]|]; auto; intros [H K]; (split; [exact H|]); rewrite in_app_iff; cbn; auto.
  intros [?|[?|[]]]; auto.
Qed.

Lemma child_knows_others before m l : ~ In (name_of m) (map ch_name l) -> forall slots,
  Forall2 (child_knows before) l slots -> Forall2 (child_knows (before ++ [m])) l slots.
Proof.
  induction l as [|d l IH]; intros N slots F; inversion F; subst; constructor.
  - apply child_knows_other; auto. intros Q. apply N. now left.
  - apply IH; auto. intros I. apply N. now right.
Qed.

Lemma child_branches_true before m after : all = before ++ m :: after ->
  forall l slots, incl l ds -> NoDup (map ch_name l) -> Forall2 (child_knows before) l slots ->
  yields (child_error dn dv ds place all)
    (fun r => Forall2 (child_knows (before ++ [m])) l (snd r)
              /\ (fst r = false -> ~ In (name_of m) (map ch_name l)))
    (child_branches dn l slots m).
Proof.
  intros Al.
  assert (I : In m all) by (rewrite Al; apply in_or_app; right; now left).
  induction l as [|d l IH]; intros slots In_ ND F; inversion F as [|? sl ? slots' K F']; subst;
    cbn [child_branches].
  - apply y_ok. split; [constructor|]. intros _ [].
  - assert (Id : In d ds) by (apply In_; now left).
    assert (Il : incl l ds) by (intros q J; apply In_; now right).
    cbn [map] in ND. inversion ND as [|? ? N1 N2]; subst.
    assert (T : forall sl', child_knows before d sl' -> name_of m <> ch_name d ->
      yields (child_error dn dv ds place (before ++ m :: after))
        (fun r => Forall2 (child_knows (before ++ [m])) (d :: l) (snd r)
              /\ (fst r = false -> ~ In (name_of m) (map ch_name (d :: l))))
        (d_map (fun '(t, ss) => (t, sl' :: ss)) (child_branches dn l slots' m))).
    { intros sl' Ks Ne. eapply y_map; [apply (IH slots' Il N2 F')|].
      intros [t ss] [H1 H2]. cbn [fst snd] in *. split.
      - constructor; [now apply child_knows_other|exact H1].
      - intros Tf [Q|J]; [congruence|]. now apply H2. }
    fold (name_of m).
    assert (Rest : name_of m = ch_name d -> Forall2 (child_knows (before ++ [m])) l slots').
    { intros Q. apply child_knows_others; auto. now rewrite Q. }
    assert (Seen : name_of m = ch_name d -> In (ch_name d) (map name_of (before ++ [m]))).
    { intros Q. rewrite map_app, in_app_iff. right. left. exact Q. }
    assert (V : name_of m = ch_name d -> ch_mode d <> CmBool ->
      reports (child_error dn dv ds place (before ++ m :: after)) (dn d m)).
    { intros Q Nb. apply may_reports'; [now apply W|]. intros e M. eapply CE_value; eauto. }
    destruct sl as [x|xs|[x|]|b]; [destruct K| | | |];
      (destruct (text_eqb_reflect (name_of m) (ch_name d)) as [Q|Q]; [|now apply T]); cbn in K.
    + apply y_map with (Q := fun _ => True); [apply y_any, V; congruence|]. intros x _. cbn [fst snd].
      split; [|discriminate]. constructor; auto.
    + apply y_err. rewrite duplicate_right by auto. destruct K as [K1 K2].
      eapply CE_duplicate with (d := d); eauto. rewrite Q. exact K2.
    + apply y_map with (Q := fun _ => True); [apply y_any, V; [exact Q|now destruct K; congruence]|].
      intros x _. cbn [fst snd]. split; [|discriminate]. constructor; auto.
      cbn. split; [apply K|now apply Seen].
    + destruct K as [K1 K2].
      assert (Fl : forall e, In e (flag_errors (s_value m)) ->
                child_error dn dv ds place (before ++ m :: after) e).
      { intros e J. eapply CE_flag with (d := d); eauto. }
      assert (Du : b = true -> child_error dn dv ds place (before ++ m :: after) (duplicate_node d m)).
      { intros ->. rewrite duplicate_right by auto. eapply CE_duplicate with (d := d); eauto.
        rewrite Q. auto. }
      split.
      * intros c. rewrite flag_node_errors. destruct b; cbn [fst snd].
        -- split; [|discriminate]. rewrite emit_with.
           exists (flag_errors (s_value m) ++ [duplicate_node d m]). split; [reflexivity|].
           apply Forall_app. split; [now apply Forall_forall|]. constructor; auto.
        -- split; [|discriminate]. exists (flag_errors (s_value m)).
           split; [reflexivity|]. now apply Forall_forall.
      * intros c r. destruct b; cbn [fst snd]; intros E; injection E as <-; cbn [fst snd];
          (split; [|discriminate]); constructor; auto; cbn; auto.
Qed.

Lemma child_loop_true : forall ns before slots rest, all = before ++ ns ->
  Forall2 (child_knows before) ds slots ->
  yields (child_error dn dv ds place all) (fun r => Forall2 (child_knows all) ds (fst r))
    (child_loop dn dv ds slots rest ns).
Proof.
  induction ns as [|m ns IH]; intros before slots rest Al F; cbn [child_loop].
  - apply y_ok. rewrite Al, app_nil_r. exact F.
  - assert (Al' : all = (before ++ [m]) ++ ns) by (rewrite <- app_assoc; exact Al).
    assert (I : In m all) by (rewrite Al; apply in_or_app; right; now left).
    eapply y_bind.
    + apply (child_branches_true before m ns Al ds slots (incl_refl _) (proj1 PC) F).
    + intros [t slots'] [H1 H2]. cbn [fst snd] in *. destruct t; [eapply IH; eauto|].
      specialize (H2 eq_refl). destruct dv as [f|] eqn:V.
      * apply y_bind with (Q := fun _ => True).
        { apply y_any, may_reports'; [now apply WV|]. intros e M. eapply CE_rest; eauto. }
        intros x _. eapply IH; eauto.
      * apply y_bind with (Q := fun _ => True).
        { apply y_any, says_emit. exact (CE_unknown dn None ds place all m eq_refl I H2). }
        intros _ _. eapply IH; eauto.
Qed.

Lemma children_true (s : struct Sp L) : st_children s = ds ->
  reports (child_error dn dv ds place all) (decode_children dn dv s place all).
Proof.
  intros Sd. unfold decode_children. rewrite Sd.
  assert (St : Forall2 (child_knows []) ds (map child_start ds)).
  { destruct PC as [_ F]. clear -F. induction F as [|d l Hd F IH]; constructor; auto.
    unfold child_start. destruct (ch_mode d) eqn:M; cbn; try congruence; split; auto. discriminate. }
  destruct (child_loop_true all [] (map child_start ds) [] eq_refl St) as [H1 H2].
  eapply says_then; [exact H1|exact H2|]. intros [slots rest] F. cbn [fst] in F.
  apply says_map, says_collect. intros [d sl] I.
  assert (G : In d ds /\ child_knows all d sl).
  { clear -F I. induction F as [|d' sl' ds' slots' K F IH]; [destruct I|]. cbn in I.
    destruct I as [Q|I]; [injection Q as -> ->; split; [now left|exact K]|].
    destruct (IH I). split; [now right|assumption]. }
  destruct G as [Id K]. unfold child_finish. destruct sl as [x|xs|x|b]; [destruct K| | |apply says_ok].
  - destruct xs; [destruct (ch_default d)|]; apply says_ok.
  - destruct (ch_default d) eqn:D; [apply says_ok|]. destruct (ch_option d) eqn:O; [apply says_ok|].
    destruct x as [x|]; [apply says_ok|]. apply says_err. destruct K as [K1 K2].
    exact (CE_missing dn dv ds place all d Id K1 K2 D O).
Qed.

End Children.
End Parts.

(** ** Structs *)

Section Struct.
Context {Sp L : Type} (kebab : text -> text) (named : bool) (ident : text) (cont : list (attr L))
  (fs : list (src_field Sp L)) (d : derived Sp L).
Hypothesis D : derives_struct kebab named ident cont fs d.
Hypothesis W : Forall (fun f => within appends (sf_impl f)) fs.

Lemma struct_true n : plain_fields kebab fs -> reports (struct_error kebab fs n) (dr_node d n).
Proof.
  intros [PP PC]. destruct D as (Hd & Pr & Nn).
  destruct (derived_struct _ _ _ _ _ _ Hd Pr Nn) as (s & S & E).
  rewrite (emit_struct_node _ _ _ _ E).
  pose proof (struct_new_within _ _ _ _ _ _ S W) as Ws. apply within_parts in Ws.
  destruct Ws as (W1 & W2 & W3 & W4 & W5 & W6 & W7).
  apply struct_new_filed in S. destruct S as [F _].
  unfold struct_error, children_error. 
  rewrite <- (fi_spans _ _ _ _ F), <- (fi_node_names _ _ _ _ F), <- (fi_type_names _ _ _ _ F).
  unfold the_arguments, the_properties, the_children in *.
  rewrite <- (fi_arguments _ _ _ _ F). rewrite <- (fi_properties _ _ _ _ F) in PP |- *.
  rewrite <- (fi_children _ _ _ _ F) in PC |- *.
  rewrite (struct_var_args _ _ _ _ F), (struct_var_props _ _ _ _ F).
  unfold rest_decoder. rewrite (struct_var_children _ _ _ _ F).
  unfold struct_node.
  apply says_bind; [eapply reports_mono; [|now apply specials_true]; auto|]. intros ws.
  apply says_bind; [eapply reports_mono; [|now apply args_true]; auto|]. intros xs.
  apply says_bind; [eapply reports_mono; [|eapply props_true; eauto]; auto|]. intros ys.
  apply says_bind; [|intros zs; apply says_ok].
  eapply reports_mono; [|eapply children_true; eauto]; auto.
  - intros x m I. apply adds_node_fn; [apply appends_onward|auto].
  - intros f m V. unfold var_child_fn in V. destruct (st_var_children s) as [[g u]|] eqn:Q; [|discriminate].
    injection V as <-. apply adds_node_fn; [apply appends_onward|eauto].
Qed.

Lemma document_true f ns : plain_children (the_children kebab fs) -> dr_children d = Some f ->
  reports (children_error kebab fs None ns) (f ns).
Proof.
  intros PC C. destruct D as (Hd & Pr & Nn).
  destruct (derived_struct _ _ _ _ _ _ Hd Pr Nn) as (s & S & E).
  destruct (emit_struct_children _ _ _ _ _ E C) as (-> & _).
  pose proof (struct_new_within _ _ _ _ _ _ S W) as Ws. apply within_parts in Ws.
  destruct Ws as (W1 & W2 & W3 & W4 & W5 & W6 & W7).
  apply struct_new_filed in S. destruct S as [F _].
  unfold children_error, the_children in *.
  rewrite <- (fi_children _ _ _ _ F) in PC |- *.
  unfold rest_decoder. rewrite (struct_var_children _ _ _ _ F).
  unfold struct_document. apply says_bind; [|intros zs; apply says_ok].
  eapply children_true; eauto.
  - intros x m I. apply adds_node_fn; [apply appends_onward|auto].
  - intros g m V. unfold var_child_fn in V. destruct (st_var_children s) as [[h u]|] eqn:Q; [|discriminate].
    injection V as <-. apply adds_node_fn; [apply appends_onward|eauto].
Qed.

End Struct.

(** From the text. *)
Lemma document_parse_true L kebab named ident cont (fs : list (src_field span L)) d :
  derives_struct kebab named ident cont fs d ->
  Forall (fun f => within appends (sf_impl f)) fs ->
  forall t f es, plain_children (the_children kebab fs) ->
  dr_children d = Some f -> parse (parse_ast_span t) f = Decode_errors es ->
  exists doc, parse_ast_span t = Parsed doc /\ Forall (children_error kebab fs None doc) es.
Proof.
  intros D W t f es PC C P.
  destruct (parse_ast_span t) as [doc| |] eqn:T; try discriminate.
  exists doc. split; [reflexivity|]. eapply parse_reports_all; [|exact P].
  eapply document_true; eauto.
Qed.

(** ** What is unwrapped *)

Lemma unwrap_true {Sp L} kebab (f : field Sp L) mode parse inner default n :
  within appends (f_impl f) -> unwrappable mode ->
  reports (unwrap_error kebab f mode parse inner default n)
    (node_fn kebab f (Some (inside mode parse inner default)) n).
Proof.
  intros W U. unfold node_fn at 1, inside. cbn [unwrap_fn].
  set (s := unwrap_struct kebab (tmp_name (f_attr f)) (f_impl f) _).
  change (match inner with
          | Some u => unwrap_fn kebab (tmp_name (f_attr f)) (f_impl f) u
          | None => ti_node (f_impl f)
          end) with (node_fn kebab f inner).
  assert (S : st_arguments s = inner_arguments f mode parse default
              /\ st_var_args s = inner_var_args f mode parse
              /\ st_properties s = inner_properties kebab f mode parse default
              /\ st_var_props s = inner_var_props f mode parse
              /\ st_children s = inner_children kebab f mode inner default
              /\ (match st_var_children s with Some _ => Some (node_fn kebab f inner) | None => None end)
                 = inner_decoder kebab f mode inner).
  { subst s. destruct mode as [| | | |[name|]| | | | |]; try contradiction U;
      unfold unwrap_struct, add_field, new_named, builder_new;
      cbn [fa_mode fa_decode fa_default fa_unwrap f_attr tmp_name];
      try destruct name; cbn; unfold parse_mode; rewrite ?Bool.andb_false_r; repeat split; reflexivity. }
  destruct S as (S1 & S2 & S3 & S4 & S5 & S6).
  assert (Wn : forall m, moves appends (node_fn kebab f inner m)).
  { intros m. apply adds_node_fn; [apply appends_onward|exact W]. }
  apply says_bind.
  { eapply reports_mono; [|apply args_true].
    - intros e H. left. now rewrite S1, S2 in H.
    - intros a. rewrite S1. destruct mode; cbn; try contradiction. intros [<-|[]]. exact W.
    - intros g m. rewrite S2. destruct mode; cbn; try discriminate. intros H. now injection H as <- <-. }
  intros xs. apply says_bind.
  { eapply reports_mono; [|eapply props_true; [ | | |reflexivity|reflexivity]].
    - intros e H. right. left. rewrite S3, S4 in H. exact H.
    - intros p. rewrite S3. destruct mode; cbn; try contradiction. intros [<-|[]]. exact W.
    - rewrite S3. destruct mode; cbn; try apply plain_nil_props. now apply plain_one_prop.
    - intros g m. rewrite S4. destruct mode; cbn; try discriminate. intros H. now injection H as <- <-. }
  intros ys. apply says_bind.
  { rewrite S6. eapply reports_mono; [|eapply children_true; [ | | |reflexivity]].
    - intros e H. right. right. rewrite S5 in H. exact H.
    - intros d m _. apply Wn.
    - intros g m. destruct mode as [| | | |[name|]| | | | |]; cbn; try discriminate.
      intros H. injection H as <-. apply Wn.
    - rewrite S5. destruct mode as [| | | |[name|]| | | | |]; cbn; try apply plain_nil_children;
        now apply plain_one_child. }
  intros zs. destruct (rev _); [apply says_panic|apply says_ok].
Qed.
