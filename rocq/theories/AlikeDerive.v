(** The generated code on things that are alike. *)

From Coq Require Import NArith List Bool String Arith.
From Verif Require Import Chars Ast Errors Chumsky Decode Scalar Containers DeriveDef Derive AlikeSpec AlikeProps.
Import ListNotations.

Lemma insert_sorted_alike {A B} (P : A -> B -> Prop) x y l1 l2 :
  pair_alike eq P x y -> Forall2 (pair_alike eq P) l1 l2 ->
  Forall2 (pair_alike eq P) (insert_sorted x l1) (insert_sorted y l2).
Proof.
  intros X H. induction H as [|a b l1 l2 AB H IH]; cbn [insert_sorted]; [apply F2_one, X|].
  assert (E : Nat.leb (fst x) (fst a) = Nat.leb (fst y) (fst b)) by (inv X; inv AB; reflexivity).
  rewrite E. destruct (Nat.leb (fst y) (fst b)); constructor; try assumption. constructor; assumption.
Qed.

Lemma sort_alike {A B} (P : A -> B -> Prop) l1 l2 : Forall2 (pair_alike eq P) l1 l2 ->
  Forall2 (pair_alike eq P) (sort_by_index l1) (sort_by_index l2).
Proof.
  intro H. unfold sort_by_index. induction H; cbn [fold_right]; [constructor|].
  apply insert_sorted_alike; assumption.
Qed.

Section Alike.
Context {Sp1 Sp2 L1 L2 : Type}.
Variable R : Sp1 -> Sp2 -> Prop.
Variable RL : L1 -> L2 -> Prop.
Variable kebab : text -> text.

Notation dv := (dval_alike RL).
Notation ctx := (context_alike R).
Notation sp := (spanned_alike R eq).
Notation va := (value_alike R).
Notation sn := (snode_alike R).
Notation de := (dec_alike R).
Notation err := (error_alike R).
Notation fl := (fl R RL).
Notation st := (struct_alike R RL).
Notation arg_alike := (arg_alike R RL).
Notation prop_alike := (prop_alike R RL).
Notation child_alike := (child_alike R RL).

Ltac flds := cbn [st_ident st_spans st_node_names st_type_names st_arguments st_var_args st_properties
  st_var_props st_has_arguments st_has_properties st_children st_var_children st_extra] in *.

(** ** Specials, arguments and properties *)

Lemma a_specials s1 s2 n1 n2 : st s1 s2 -> sn n1 n2 ->
  de (Forall2 dv) (decode_specials s1 n1) (decode_specials s2 n2).
Proof.
  intros S N. inv S. unfold decode_specials. flds.
  destruct N as [q1 q2 m1 m2 Q M]. pose proof (node_name_alike _ _ _ M) as NM.
  assert (T : opt_alike sp (n_type_name m1) (n_type_name m2)) by (inv M; assumption).
  eapply a_bind with (P := Forall2 dv); [eapply a_collect with (P := dv); [eassumption|]|].
  { intros f1 f2 F c1' c2' C. unfold special_span. cbn [s_span].
    pose proof (ta_span _ _ _ _ (proj2 F) q1 q2 _ _ Q C) as X.
    destruct (ti_span (f_impl f1) q1 c1'), (ti_span (f_impl f2) q2 c2'). inv X.
    constructor; [assumption|constructor; assumption]. }
  intros ws1 ws2 W. eapply a_bind with (P := Forall2 dv); [eapply a_collect with (P := dv); [eassumption|]|].
  { intros f1 f2 F. unfold special_node_name. cbn [s_value]. rewrite <- (sp_value _ _ _ _ NM).
    eapply a_convert; [exact NM|apply (ta_from_str _ _ _ _ (proj2 F))]. }
  intros xs1 xs2 X. eapply a_bind with (P := Forall2 dv); [eapply a_collect with (P := dv); [eassumption|]|].
  { intros [f1 o1] [f2 o2] F. inv F. unfold special_type_name. cbn [s_value].
    match goal with Y : AlikeProps.fl _ _ _ _ |- _ => pose proof (proj2 Y) as I end.
    inv T.
    - destruct o2; [apply a_ok; constructor|]. apply a_err, err_missing. constructor; assumption.
    - match goal with Y : spanned_alike _ eq ?a ?b |- context [d_convert ?a] =>
        rewrite (sp_value _ _ _ _ Y); pose proof Y as TT end.
      assert (K : forall t, de dv (d_convert a (ti_from_str (f_impl f1) t))
                              (d_convert b (ti_from_str (f_impl f2) t))).
      { intro t. eapply a_convert; [exact TT|apply (ta_from_str _ _ _ _ I)]. }
      destruct o2; [eapply a_map; [apply K|]; intros; constructor; assumption|apply K]. }
  intros ys1 ys2 Y. eapply a_bind.
  { assert (K : de eq
        (match t1, n_type_name m1 with
         | [], Some tn => d_emit (unexpected tn (str "type name") (str "no type name expected for this node"))
         | _, _ => d_ok tt end)
        (match t2, n_type_name m2 with
         | [], Some tn => d_emit (unexpected tn (str "type name") (str "no type name expected for this node"))
         | _, _ => d_ok tt end)).
    { match goal with Z : Forall2 _ t1 t2 |- _ => inv Z end.
      - inv T; [apply a_ok; reflexivity|]. apply a_emit. eapply err_unexpected. eassumption.
      - apply a_ok; reflexivity. }
    exact K. }
  intros _ _ _. apply a_ok. repeat apply F2_app; assumption.
Qed.

Lemma a_arg_fields n1 n2 l1 l2 : sn n1 n2 -> Forall2 arg_alike l1 l2 -> forall it1 it2,
  Forall2 va it1 it2 ->
  de (pair_alike (Forall2 dv) (Forall2 va)) (arg_fields n1 l1 it1) (arg_fields n2 l2 it2).
Proof.
  intros N H. induction H as [|a b l1 l2 AB H IH]; intros it1 it2 I; cbn [arg_fields].
  - apply a_ok. constructor; [constructor|exact I].
  - eapply a_bind with (P := pair_alike dv (Forall2 va)).
    + inv I.
      * inv AB. cbn [ar_default ar_kind_option]. 
        match goal with X : opt_alike dv _ _ |- _ => inv X end.
        -- destruct k; [apply a_ok; repeat constructor|]. unfold arg_required, is_indexed.
           cbn [ar_field]. match goal with X : AlikeProps.fl _ _ _ _ |- _ => rewrite (proj1 X) end.
           apply a_err, err_missing, N.
        -- apply a_ok. constructor; [assumption|constructor].
      * inv AB. cbn [ar_decode ar_option ar_field]. eapply a_map; [apply a_decode_value; [|eassumption]|].
        -- match goal with X : AlikeProps.fl _ _ _ _ |- _ => exact (proj2 X) end.
        -- intros u w X. constructor; assumption.
    + intros [x1 i1] [x2 i2] X. inv X. eapply a_map; [apply IH; eassumption|].
      intros [xs1 j1] [xs2 j2] Y. inv Y. constructor; [constructor|]; assumption.
Qed.

Lemma a_args s1 s2 n1 n2 : st s1 s2 -> sn n1 n2 ->
  de (Forall2 dv) (decode_args s1 n1) (decode_args s2 n2).
Proof.
  intros S N. inv S. unfold decode_args. flds.
  eapply a_bind; [apply a_arg_fields; [exact N|eassumption|]|].
  { inv N. match goal with X : node_alike _ _ _ |- _ => inv X end. assumption. }
  intros [xs1 i1] [xs2 i2] X. inv X.
  match goal with X : opt_alike _ va1 va2 |- _ => inv X end.
  - match goal with X : Forall2 va _ _ |- _ => inv X end; [apply a_ok; assumption|].
    apply a_err, err_arg. assumption.
  - match goal with X : pair_alike _ _ _ _ |- _ => inv X end.
    eapply a_map; [eapply a_collect; [eassumption|]|].
    + intros v1 v2 V. apply a_decode_value; [|exact V].
      match goal with X : AlikeProps.fl _ _ _ _ |- _ => exact (proj2 X) end.
    + intros ys1 ys2 Y. apply F2_snoc; [assumption|constructor; exact Y].
Qed.

Inductive pslot_alike : prop_slot L1 -> prop_slot L2 -> Prop :=
| PSA_flat x y : dv x y -> pslot_alike (PFlat x) (PFlat y)
| PSA_option x y s : dv x y -> pslot_alike (POption x s) (POption y s)
| PSA_plain x y : opt_alike dv x y -> pslot_alike (PPlain x) (PPlain y).

Lemma prop_start_alike p1 p2 : prop_alike p1 p2 -> pslot_alike (prop_start p1) (prop_start p2).
Proof.
  intro H. inv H. unfold prop_start. cbn [pr_flatten pr_option pr_field].
  destruct fl_; [|destruct o]; constructor; try constructor.
  match goal with X : AlikeProps.fl _ _ _ _ |- _ => exact (ta_default _ _ _ _ (proj2 X)) end.
Qed.

Lemma a_prop_branches ps1 ps2 k1 k2 v1 v2 : Forall2 prop_alike ps1 ps2 -> sp k1 k2 -> va v1 v2 ->
  forall ss1 ss2, Forall2 pslot_alike ss1 ss2 ->
  de (pair_alike eq (Forall2 pslot_alike)) (prop_branches ps1 ss1 k1 v1) (prop_branches ps2 ss2 k2 v2).
Proof.
  intros H K V. induction H as [|p1 p2 ps1 ps2 PP H IH]; intros ss1 ss2 S; cbn [prop_branches].
  { apply a_ok. constructor; [reflexivity|exact S]. }
  inv S. { apply a_ok. constructor; constructor. }
  assert (G : forall sl1 sl2, pslot_alike sl1 sl2 ->
    de (pair_alike eq (Forall2 pslot_alike))
      (if text_eqb (s_value k1) (pr_name p1) then
         d_map (fun x => (true, (if pr_option p1 then POption x true else PPlain (Some x)) :: l))
           (decode_value (pr_decode p1) (pr_option p1) (f_impl (pr_field p1)) v1)
       else d_map (fun '(t, ss) => (t, sl1 :: ss)) (prop_branches ps1 l k1 v1))
      (if text_eqb (s_value k2) (pr_name p2) then
         d_map (fun x => (true, (if pr_option p2 then POption x true else PPlain (Some x)) :: l'))
           (decode_value (pr_decode p2) (pr_option p2) (f_impl (pr_field p2)) v2)
       else d_map (fun '(t, ss) => (t, sl2 :: ss)) (prop_branches ps2 l' k2 v2))).
  { intros sl1 sl2 SL. rewrite (sp_value _ _ _ _ K). inv PP. cbn [pr_name pr_option pr_decode pr_field].
    destruct (text_eqb (s_value k2) n).
    - eapply a_map; [apply a_decode_value; [|exact V]|].
      + match goal with X : AlikeProps.fl _ _ _ _ |- _ => exact (proj2 X) end.
      + intros a b X. constructor; [reflexivity|]. constructor; [|assumption].
        destruct o; constructor; [exact X|constructor; exact X].
    - eapply a_map; [apply IH; assumption|]. intros [t1 s1] [t2 s2] X. inv X.
      constructor; [reflexivity|constructor; assumption]. }
  match goal with X : pslot_alike _ _ |- _ => pose proof X as SL; inv X end.
  - eapply a_bind.
    + inv PP. cbn [pr_field]. apply (ta_insert_property R RL); [|eassumption|exact K|exact V].
      match goal with X : AlikeProps.fl _ _ _ _ |- _ => exact (proj2 X) end.
    + intros [t1 x1] [t2 x2] X. inv X. destruct t2.
      * apply a_ok. constructor; [reflexivity|]. constructor; [constructor|]; assumption.
      * eapply a_map; [apply IH; assumption|]. intros [t1 s1] [t2 s2] Y. inv Y.
        constructor; [reflexivity|]. constructor; [constructor|]; assumption.
  - apply G, SL.
  - apply G, SL.
Qed.

Lemma a_prop_loop s1 s2 kvs1 kvs2 : st s1 s2 -> Forall2 (pair_alike sp va) kvs1 kvs2 ->
  forall ss1 ss2 r1 r2, Forall2 pslot_alike ss1 ss2 -> Forall2 (pair_alike dv dv) r1 r2 ->
  de (pair_alike (Forall2 pslot_alike) (Forall2 (pair_alike dv dv)))
    (prop_loop s1 ss1 r1 kvs1) (prop_loop s2 ss2 r2 kvs2).
Proof.
  intros S H. induction H as [|[k1 v1] [k2 v2] kvs1 kvs2 KV H IH]; intros ss1 ss2 r1 r2 SS RR; cbn [prop_loop].
  { apply a_ok. constructor; assumption. }
  inv KV. eapply a_bind.
  { apply a_prop_branches; [|eassumption|eassumption|exact SS]. inv S. flds. assumption. }
  intros [t1 x1] [t2 x2] X. inv X. destruct t2; [apply IH; assumption|].
  assert (W : opt_alike (pair_alike fl eq) (st_var_props s1) (st_var_props s2)) by (inv S; flds; assumption).
  inv W; [apply a_err, err_prop; assumption|].
  match goal with X : pair_alike fl eq ?a ?b |- _ => inv X end.
  match goal with X : AlikeProps.fl _ _ _ _ |- _ => pose proof (proj2 X) as I end.
  match goal with X : sp k1 k2 |- _ => rewrite (sp_value _ _ _ _ X) end.
  eapply a_bind; [eapply a_convert; [eassumption|apply (ta_key_from_str _ _ _ _ I)]|].
  intros y1 y2 Y. eapply a_bind; [apply a_decode_value; eassumption|].
  intros z1 z2 Z. apply IH; [assumption|]. apply F2_snoc; [exact RR|constructor; assumption].
Qed.

Lemma a_prop_finish n1 n2 x1 x2 : sn n1 n2 -> pair_alike prop_alike pslot_alike x1 x2 ->
  de dv (prop_finish n1 x1) (prop_finish n2 x2).
Proof.
  intros N X. inv X. unfold prop_finish.
  match goal with P : AlikeProps.prop_alike _ _ _ _ |- _ => inv P end. cbn [pr_default pr_name].
  match goal with S : pslot_alike _ _ |- _ => inv S end.
  - apply a_ok. assumption.
  - match goal with D : opt_alike dv d1 d2 |- _ => inv D end; apply a_ok; [assumption|].
    destruct s; assumption.
  - match goal with D : opt_alike dv x y |- _ => inv D end; [|apply a_ok; assumption].
    match goal with D : opt_alike dv d1 d2 |- _ => inv D end; [|apply a_ok; assumption].
    apply a_err, err_missing, N.
Qed.

Lemma a_props s1 s2 n1 n2 : st s1 s2 -> sn n1 n2 ->
  de (Forall2 dv) (decode_props s1 n1) (decode_props s2 n2).
Proof.
  intros S N. unfold decode_props.
  assert (PS : Forall2 prop_alike (st_properties s1) (st_properties s2)) by (inv S; flds; assumption).
  eapply a_bind; [apply a_prop_loop; [exact S| | |constructor]|].
  - inv N. match goal with X : node_alike _ _ _ |- _ => inv X end. assumption.
  - eapply F2_map; [|exact PS]. apply prop_start_alike.
  - intros [ss1 r1] [ss2 r2] X. inv X. eapply a_map; [eapply a_collect|].
    + apply F2_combine; eassumption.
    + intros x y XY. apply a_prop_finish; [exact N|exact XY].
    + intros xs1 xs2 XS. apply F2_app; [exact XS|].
      assert (W : opt_alike (pair_alike fl eq) (st_var_props s1) (st_var_props s2)) by (inv S; flds; assumption).
      inv W; [constructor|]. apply F2_one. constructor. assumption.
Qed.

(** ** Children *)

Inductive cslot_alike : child_slot L1 -> child_slot L2 -> Prop :=
| CSA_flat x y : dv x y -> cslot_alike (CFlat x) (CFlat y)
| CSA_multi x y : Forall2 dv x y -> cslot_alike (CMulti x) (CMulti y)
| CSA_normal x y : opt_alike dv x y -> cslot_alike (CNormal x) (CNormal y)
| CSA_bool b : cslot_alike (CBool b) (CBool b).

Lemma child_start_alike d1 d2 : child_alike d1 d2 -> cslot_alike (child_start d1) (child_start d2).
Proof.
  intro H. inv H. unfold child_start. cbn [ch_mode ch_field]. destruct m; constructor; try constructor.
  match goal with X : AlikeProps.fl _ _ _ _ |- _ => exact (ta_default _ _ _ _ (proj2 X)) end.
Qed.

Lemma err_duplicate d1 d2 n1 n2 : child_alike d1 d2 -> sn n1 n2 ->
  err (duplicate_node d1 n1) (duplicate_node d2 n2).
Proof.
  intros D N. unfold duplicate_node. inv D. cbn [ch_name].
  eapply err_unexpected. apply node_name_alike, (sp_value _ _ _ _ N).
Qed.

Lemma node_text n1 n2 : sn n1 n2 ->
  s_value (n_node_name (s_value n1)) = s_value (n_node_name (s_value n2)).
Proof. intro N. apply (sp_value R eq), node_name_alike, (sp_value _ _ _ _ N). Qed.

Section Fns.
Variable dn1 : child Sp1 L1 -> node_impl Sp1 (dval L1).
Variable dn2 : child Sp2 L2 -> node_impl Sp2 (dval L2).
Hypothesis DN : forall d1 d2, child_alike d1 d2 -> node_impl_alike R dv (dn1 d1) (dn2 d2).

Lemma a_child_branches ds1 ds2 n1 n2 : Forall2 child_alike ds1 ds2 -> sn n1 n2 ->
  forall ss1 ss2, Forall2 cslot_alike ss1 ss2 ->
  de (pair_alike eq (Forall2 cslot_alike)) (child_branches dn1 ds1 ss1 n1) (child_branches dn2 ds2 ss2 n2).
Proof.
  intros H N. induction H as [|d1 d2 ds1 ds2 DD H IH]; intros ss1 ss2 S; cbn [child_branches].
  { apply a_ok. constructor; [reflexivity|exact S]. }
  inv S. { apply a_ok. constructor; constructor. }
  rewrite (node_text _ _ N).
  assert (EN : ch_name d1 = ch_name d2) by (inv DD; reflexivity). rewrite EN.
  assert (G : forall sl1 sl2, cslot_alike sl1 sl2 ->
    de (pair_alike eq (Forall2 cslot_alike))
      (d_map (fun '(t, ss) => (t, sl1 :: ss)) (child_branches dn1 ds1 l n1))
      (d_map (fun '(t, ss) => (t, sl2 :: ss)) (child_branches dn2 ds2 l' n2))).
  { intros sl1 sl2 SL. eapply a_map; [apply IH; assumption|]. intros [t1 s1] [t2 s2] X. inv X.
    constructor; [reflexivity|constructor; assumption]. }
  match goal with X : cslot_alike _ _ |- _ => rename X into SL; pose proof SL as SL'; destruct SL' as [u w U|u w U|u w U|b] end.
  - eapply a_bind.
    + inv DD. cbn [ch_field]. apply (ta_insert_child R RL); [|eassumption|exact N].
      match goal with X : AlikeProps.fl _ _ _ _ |- _ => exact (proj2 X) end.
    + intros [t1 x1] [t2 x2] X. inv X. destruct t2; [|apply G; constructor; assumption].
      apply a_ok. constructor; [reflexivity|]. constructor; [constructor|]; assumption.
  - destruct (text_eqb _ (ch_name d2)); [|apply G, SL].
    eapply a_map; [apply DN; eassumption|]. intros a b X. constructor; [reflexivity|].
    constructor; [constructor; apply F2_snoc; assumption|assumption].
  - destruct (text_eqb _ (ch_name d2)); [|apply G, SL].
    match goal with D : opt_alike dv u w |- _ => inv D end.
    + eapply a_map; [apply DN; eassumption|]. intros a b X. constructor; [reflexivity|].
      constructor; [constructor; constructor; exact X|assumption].
    + apply a_err, err_duplicate; assumption.
  - destruct (text_eqb _ (ch_name d2)); [|apply G, SL]. intros c1 c2 C.
    pose proof (flag_alike _ _ _ _ _ N C) as C'.
    destruct b; constructor; try assumption; try (constructor; constructor; [reflexivity|]; constructor; [constructor|assumption]).
    apply ctx_emit; [apply err_duplicate; assumption|assumption].
Qed.

Lemma a_child_loop dv1 dv2 ds1 ds2 ns1 ns2 : opt_alike (node_impl_alike R dv) dv1 dv2 ->
  Forall2 child_alike ds1 ds2 -> Forall2 sn ns1 ns2 ->
  forall ss1 ss2 r1 r2, Forall2 cslot_alike ss1 ss2 -> Forall2 dv r1 r2 ->
  de (pair_alike (Forall2 cslot_alike) (Forall2 dv))
    (child_loop dn1 dv1 ds1 ss1 r1 ns1) (child_loop dn2 dv2 ds2 ss2 r2 ns2).
Proof.
  intros V D H. induction H as [|n1 n2 ns1 ns2 NN H IH]; intros ss1 ss2 r1 r2 SS RR; cbn [child_loop].
  { apply a_ok. constructor; assumption. }
  eapply a_bind; [apply a_child_branches; eassumption|].
  intros [t1 x1] [t2 x2] X. inv X. destruct t2; [apply IH; assumption|].
  pose proof V as V'. inv V'.
  - eapply a_bind; [apply a_emit, err_node, NN|]. intros _ _ _. apply IH; assumption.
  - eapply a_bind; [match goal with X : node_impl_alike _ _ _ _ |- _ => apply X; exact NN end|].
    intros y1 y2 Y. apply IH; [assumption|apply F2_snoc; assumption].
Qed.

Lemma a_child_finish e1 e2 x1 x2 : opt_alike R e1 e2 -> pair_alike child_alike cslot_alike x1 x2 ->
  de dv (child_finish e1 x1) (child_finish e2 x2).
Proof.
  intros E X. destruct X as [p1 p2 q1 q2 P Q]. unfold child_finish.
  assert (N : ch_name p1 = ch_name p2) by (inv P; reflexivity).
  assert (O : ch_option p1 = ch_option p2) by (inv P; reflexivity).
  assert (D : opt_alike dv (ch_default p1) (ch_default p2)) by (inv P; assumption).
  rewrite N, O. clear P.
  destruct Q as [x y X|l1 l2 LL|x y X|b].
  - apply a_ok, X.
  - destruct LL as [|a b l1 l2 AB LL]; destruct D as [|d1 d2 D]; apply a_ok; try assumption;
      destruct (ch_option p2); repeat constructor; assumption.
  - destruct D as [|d1 d2 D], X as [|x y X]; try (apply a_ok; assumption).
    + destruct (ch_option p2); [apply a_ok; constructor|].
      apply a_err. destruct E; constructor. assumption.
    + destruct (ch_option p2); apply a_ok; [constructor|]; assumption.
  - apply a_ok. constructor.
Qed.

Lemma a_children dv1 dv2 s1 s2 e1 e2 ns1 ns2 : opt_alike (node_impl_alike R dv) dv1 dv2 ->
  st s1 s2 -> opt_alike R e1 e2 -> Forall2 sn ns1 ns2 ->
  de (Forall2 dv) (decode_children dn1 dv1 s1 e1 ns1) (decode_children dn2 dv2 s2 e2 ns2).
Proof.
  intros V S E N. unfold decode_children.
  assert (CS : Forall2 child_alike (st_children s1) (st_children s2)) by (inv S; flds; assumption).
  eapply a_bind; [apply a_child_loop; [exact V|exact CS|exact N| |constructor]|].
  - eapply F2_map; [|exact CS]. apply child_start_alike.
  - intros [ss1 r1] [ss2 r2] X. inv X. eapply a_map; [eapply a_collect|].
    + apply F2_combine; eassumption.
    + intros x y XY. apply a_child_finish; [exact E|exact XY].
    + intros xs1 xs2 XS. apply F2_app; [exact XS|]. inv V; [constructor|].
      apply F2_one. constructor. assumption.
Qed.

End Fns.

Lemma node_children_alike n1 n2 : node_alike R n1 n2 ->
  Forall2 sn (node_children n1) (node_children n2).
Proof.
  intro H. inv H. unfold node_children. cbn [n_children].
  match goal with X : opt_alike _ c1 c2 |- _ => inv X end; [constructor|].
  apply (sp_value R (Forall2 (spanned_alike R (node_alike R)))). assumption.
Qed.

(** ** [unwrap] *)

Lemma unwrap_struct_alike name i1 i2 a1 a2 : type_alike R RL i1 i2 -> attrs_alike RL a1 a2 ->
  st (unwrap_struct kebab name i1 a1) (unwrap_struct kebab name i2 a2).
Proof.
  intros I A. unfold unwrap_struct.
  pose proof (add_field_alike R RL kebab (builder_new (str "Wrap_" ++ name)) (builder_new (str "Wrap_" ++ name))
    (new_named name i1) (new_named name i2) false false a1 a2 (builder_new_alike R RL _)
    (conj eq_refl I) A) as K.
  destruct K; apply build_alike; [assumption|apply builder_new_alike].
Qed.

Lemma a_unwrap name i1 i2 : type_alike R RL i1 i2 -> forall a1 a2, attrs_alike RL a1 a2 ->
  node_impl_alike R dv (unwrap_fn kebab name i1 a1) (unwrap_fn kebab name i2 a2).
Proof.
  intro I. fix IH 1. intros a1 a2 A n1 n2 N.
  pose proof (unwrap_struct_alike name _ _ _ _ I A) as S.
  destruct a1 as [m d u1 x1], a2 as [m2 d2 u2 x2]. cbn [unwrap_fn].
  assert (E : m = m2 /\ d = d2 /\ opt_alike (attrs_alike RL) u1 u2) by (inv A; auto).
  destruct E as [-> [-> U]]. clear A.
  assert (IN : node_impl_alike R dv
     (match u1 with Some u => unwrap_fn kebab name i1 u | None => ti_node i1 end)
     (match u2 with Some u => unwrap_fn kebab name i2 u | None => ti_node i2 end)).
  { destruct u1 as [u1|], u2 as [u2|]; try (exfalso; inversion U; fail).
    - apply IH. inversion U. assumption.
    - apply (ta_node _ _ _ _ I). }
  clear IH. revert S. generalize (unwrap_struct kebab name i1 (FieldAttrs m2 d2 u1 x1)),
    (unwrap_struct kebab name i2 (FieldAttrs m2 d2 u2 x2)). intros s1 s2 S.
  eapply a_bind; [apply a_args; eassumption|]. intros xs1 xs2 XS.
  eapply a_bind; [apply a_props; eassumption|]. intros ys1 ys2 YS.
  eapply a_bind; [eapply a_children; [intros; exact IN| |exact S|constructor; exact (sp_span _ _ _ _ N)|]|].
  - assert (W : opt_alike (pair_alike fl (opt_alike (attrs_alike RL))) (st_var_children s1) (st_var_children s2))
      by (inv S; flds; assumption).
    inv W; constructor. exact IN.
  - apply node_children_alike, (sp_value _ _ _ _ N).
  - intros zs1 zs2 ZS.
    assert (K : Forall2 dv (rev (xs1 ++ ys1 ++ zs1)) (rev (xs2 ++ ys2 ++ zs2)))
      by (apply F2_rev; repeat apply F2_app; assumption).
    inv K; [apply a_panic|apply a_ok; assumption].
Qed.

Lemma unwrap_compiles_alike name i1 i2 : type_alike R RL i1 i2 -> forall a1 a2, attrs_alike RL a1 a2 ->
  unwrap_compiles kebab name i1 a1 = unwrap_compiles kebab name i2 a2.
Proof.
  intro I. fix IH 1. intros a1 a2 A.
  pose proof (add_field_alike R RL kebab (builder_new (str "Wrap_" ++ name)) (builder_new (str "Wrap_" ++ name))
    (new_named name i1) (new_named name i2) false false a1 a2 (builder_new_alike R RL _)
    (conj eq_refl I) A) as K.
  destruct a1 as [m d u1 x1], a2 as [m2 d2 u2 x2]. cbn [unwrap_compiles].
  assert (E : m = m2 /\ d = d2 /\ opt_alike (attrs_alike RL) u1 u2) by (inv A; auto).
  destruct E as [-> [-> U]]. clear A.
  assert (IN : match u1 with Some u => unwrap_compiles kebab name i1 u | None => true end
             = match u2 with Some u => unwrap_compiles kebab name i2 u | None => true end).
  { destruct u1 as [u1|], u2 as [u2|]; try (exfalso; inversion U; fail); [|reflexivity].
    apply IH. inversion U. assumption. }
  clear IH. rewrite IN. destruct K as [b1 b2 B|e]; [|reflexivity]. inv B.
  cbn [sb_emitted sb_arguments sb_var_args sb_properties sb_var_props sb_children sb_var_children].
  repeat match goal with
  | X : Forall2 _ ?l ?l' |- context [is_nil ?l] => rewrite (F2_nil _ _ _ X)
  | X : opt_alike _ ?o ?o' |- context [is_some ?o] => rewrite (opt_some _ _ _ X)
  end.
  match goal with X : Forall2 child_alike ?l ?l' |- context [existsb ?f ?l] =>
    replace (existsb f l) with (existsb (fun d => is_some (ch_unwrap d)) l')
      by (symmetry; eapply F2_existsb; [|exact X]; intros ? ? Y; inv Y; eapply opt_some; eassumption) end.
  match goal with X : opt_alike (pair_alike _ (opt_alike _)) ?o ?o' |- _ => inv X end; [reflexivity|].
  match goal with X : pair_alike _ _ _ _ |- _ => inv X end.
  match goal with X : opt_alike (attrs_alike RL) ?a _ |- context [is_some ?a] => rewrite (opt_some _ _ _ X) end.
  reflexivity.
Qed.

Lemma a_node_fn f1 f2 u1 u2 : fl f1 f2 -> opt_alike (attrs_alike RL) u1 u2 ->
  node_impl_alike R dv (node_fn kebab f1 u1) (node_fn kebab f2 u2).
Proof.
  intros [E I] U. unfold node_fn. inv U; [apply (ta_node _ _ _ _ I)|].
  rewrite E. apply a_unwrap; assumption.
Qed.

Lemma a_child_fn d1 d2 : child_alike d1 d2 -> node_impl_alike R dv (child_fn kebab d1) (child_fn kebab d2).
Proof. intro H. inv H. unfold child_fn. cbn [ch_field ch_unwrap]. apply a_node_fn; assumption. Qed.

Lemma unwraps_compile_alike s1 s2 : st s1 s2 -> unwraps_compile kebab s1 = unwraps_compile kebab s2.
Proof.
  intro S. inv S. unfold unwraps_compile. flds.
  assert (K : forall f1 f2 u1 u2, fl f1 f2 -> opt_alike (attrs_alike RL) u1 u2 ->
    match u1 with Some u => unwrap_compiles kebab (tmp_name (f_attr f1)) (f_impl f1) u | None => true end
    = match u2 with Some u => unwrap_compiles kebab (tmp_name (f_attr f2)) (f_impl f2) u | None => true end).
  { intros f1 f2 u1 u2 [E I] U. inv U; [reflexivity|]. rewrite E. apply unwrap_compiles_alike; assumption. }
  f_equal.
  - eapply F2_forallb; [|eassumption]. intros a b X. inv X. cbn [ch_field ch_unwrap]. apply K; assumption.
  - match goal with X : opt_alike (pair_alike _ (opt_alike _)) ?o ?o' |- _ => inv X end; [reflexivity|].
    match goal with X : pair_alike _ _ _ _ |- _ => inv X end. apply K; assumption.
Qed.

Lemma a_struct_children s1 s2 e1 e2 ns1 ns2 : st s1 s2 -> opt_alike R e1 e2 -> Forall2 sn ns1 ns2 ->
  de (Forall2 dv) (struct_children kebab s1 e1 ns1) (struct_children kebab s2 e2 ns2).
Proof.
  intros S E N. unfold struct_children. apply a_children; try assumption; [apply a_child_fn|].
  unfold var_child_fn. inv S. flds.
  match goal with X : opt_alike (pair_alike _ (opt_alike _)) ?o ?o' |- _ => inv X end; [constructor|].
  match goal with X : pair_alike _ _ _ _ |- _ => inv X end. constructor. apply a_node_fn; assumption.
Qed.

Lemma assign_extra_alike s1 s2 : st s1 s2 -> Forall2 dv (assign_extra s1) (assign_extra s2).
Proof.
  intro S. inv S. unfold assign_extra. flds. eapply F2_map; [|eassumption].
  intros a b X. inv X. cbn [fst].
  match goal with X : AlikeProps.fl _ _ _ _ |- _ => exact (ta_default _ _ _ _ (proj2 X)) end.
Qed.

(** ** Values of structs *)

Lemma as_index_alike s1 s2 : st s1 s2 -> map as_index (all_fields s1) = map as_index (all_fields s2).
Proof.
  intro S. eapply F2_map_eq; [|apply (all_fields_alike R RL), S].
  intros f1 f2 [E _]. unfold as_index. rewrite E. reflexivity.
Qed.

Lemma tuple_ok_alike s1 s2 : st s1 s2 -> tuple_ok s1 = tuple_ok s2.
Proof.
  intro S. unfold tuple_ok.
  replace (map (fun f => (as_index f, tt)) (all_fields s1)) with (map (fun f => (as_index f, tt)) (all_fields s2));
    [reflexivity|].
  symmetry. eapply F2_map_eq; [|apply (all_fields_alike R RL), S].
  intros f1 f2 [E _]. unfold as_index. rewrite E. reflexivity.
Qed.

Lemma tuple_values_alike s1 s2 xs1 xs2 : st s1 s2 -> Forall2 dv xs1 xs2 ->
  Forall2 dv (tuple_values s1 xs1) (tuple_values s2 xs2).
Proof.
  intros S X. unfold tuple_values. eapply F2_map with (P := pair_alike eq dv).
  - intros a b Y. inv Y. assumption.
  - apply sort_alike. rewrite (as_index_alike _ _ S). apply F2_combine; [apply F2_eq|exact X].
Qed.

Lemma struct_val_alike named s1 s2 xs1 xs2 : st s1 s2 -> Forall2 dv xs1 xs2 ->
  dv (struct_val named s1 xs1) (struct_val named s2 xs2).
Proof.
  intros S X. unfold struct_val.
  assert (E : st_ident s1 = st_ident s2) by (inv S; reflexivity). rewrite E. constructor.
  destruct named.
  - assert (F : map f_attr (all_fields s1) = map f_attr (all_fields s2)).
    { eapply F2_map_eq; [|apply (all_fields_alike R RL), S]. intros f1 f2 [Y _]. exact Y. }
    rewrite F. apply F2_combine; [apply F2_eq|exact X].
  - pose proof (tuple_values_alike _ _ _ _ S X) as T. rewrite (F2_length _ _ _ T).
    apply F2_combine; [apply F2_eq|exact T].
Qed.

Lemma a_struct_node named s1 s2 : st s1 s2 ->
  node_impl_alike R dv (struct_node kebab named s1) (struct_node kebab named s2).
Proof.
  intros S n1 n2 N. unfold struct_node.
  eapply a_bind; [apply a_specials; eassumption|]. intros ws1 ws2 WS.
  eapply a_bind; [apply a_args; eassumption|]. intros xs1 xs2 XS.
  eapply a_bind; [apply a_props; eassumption|]. intros ys1 ys2 YS.
  eapply a_bind; [apply a_struct_children; [exact S|constructor; exact (sp_span _ _ _ _ N)|]|].
  - apply node_children_alike, (sp_value _ _ _ _ N).
  - intros zs1 zs2 ZS. apply a_ok, struct_val_alike; [exact S|].
    repeat apply F2_app; try assumption. apply assign_extra_alike, S.
Qed.

Lemma a_struct_document named s1 s2 : st s1 s2 ->
  children_impl_alike R dv (struct_document kebab named s1) (struct_document kebab named s2).
Proof.
  intros S n1 n2 N. unfold struct_document.
  eapply a_bind; [apply a_struct_children; [exact S|constructor|exact N]|].
  intros zs1 zs2 ZS. apply a_ok, struct_val_alike; [exact S|].
  apply F2_app; [assumption|apply assign_extra_alike, S].
Qed.

(** ** Insertion *)

Notation self := (Forall2 (pair_alike (@eq access) dv)).

Lemma get_field_alike a l1 l2 : self l1 l2 -> opt_alike dv (get_field a l1) (get_field a l2).
Proof.
  intro H. induction H as [|x y l1 l2 XY H IH]; cbn [get_field]; [constructor|].
  inv XY. destruct (access_eqb a a'); [constructor; assumption|exact IH].
Qed.

Lemma set_field_alike a v1 v2 l1 l2 : dv v1 v2 -> self l1 l2 -> self (set_field a v1 l1) (set_field a v2 l2).
Proof.
  intros V H. induction H as [|x y l1 l2 XY H IH]; cbn [set_field]; [constructor|].
  inv XY. destruct (access_eqb a a'); constructor; try assumption; constructor; try assumption; reflexivity.
Qed.

Lemma a_insert_child ds1 ds2 n1 n2 : Forall2 child_alike ds1 ds2 -> sn n1 n2 -> forall l1 l2, self l1 l2 ->
  de (pair_alike eq self) (insert_child kebab ds1 l1 n1) (insert_child kebab ds2 l2 n2).
Proof.
  intros H N. induction H as [|d1 d2 ds1 ds2 DD H IH]; intros l1 l2 S; cbn [insert_child].
  { apply a_ok. constructor; [reflexivity|exact S]. }
  rewrite (node_text _ _ N).
  assert (E : ch_name d1 = ch_name d2 /\ ch_mode d1 = ch_mode d2
     /\ f_attr (ch_field d1) = f_attr (ch_field d2)
     /\ type_alike R RL (f_impl (ch_field d1)) (f_impl (ch_field d2))).
  { inv DD. cbn [ch_name ch_mode ch_field]. match goal with X : AlikeProps.fl _ _ _ _ |- _ => destruct X end. auto. }
  destruct E as [-> [-> [-> I]]].
  pose proof (get_field_alike (f_attr (ch_field d2)) _ _ S) as G.
  destruct (ch_mode d2).
  - destruct (text_eqb _ _); [|apply IH, S].
    eapply a_bind with (P := eq).
    + inv G; [apply a_panic|]. match goal with X : dv _ _ |- _ => inv X end; try apply a_panic.
      * apply a_ok. reflexivity.
      * apply a_emit, err_duplicate; assumption.
    + intros _ _ _. eapply a_map; [apply a_child_fn; eassumption|]. intros a b X.
      constructor; [reflexivity|]. apply set_field_alike; [constructor; exact X|exact S].
  - inv G; [apply a_panic|]. eapply a_bind; [apply (ta_insert_child _ _ _ _ I); eassumption|].
    intros [t1 x1] [t2 x2] X. inv X. destruct t2.
    + apply a_ok. constructor; [reflexivity|]. apply set_field_alike; assumption.
    + apply IH, set_field_alike; assumption.
  - destruct (text_eqb _ _); [apply a_panic|apply IH, S].
  - destruct (text_eqb _ _); [|apply IH, S]. intros c1 c2 C.
    pose proof (flag_alike _ _ _ _ _ N C) as C'.
    inv G; [constructor; [exact C'|constructor]|].
    match goal with X : dv _ _ |- _ => inv X end; try (constructor; [exact C'|constructor]; fail).
    destruct b0; constructor; try assumption.
    + apply ctx_emit; [apply err_duplicate; assumption|exact C'].
    + constructor. constructor; [reflexivity|exact S].
    + constructor. constructor; [reflexivity|]. apply set_field_alike; [constructor|exact S].
Qed.

Lemma a_insert_property ps1 ps2 k1 k2 v1 v2 : Forall2 prop_alike ps1 ps2 -> sp k1 k2 -> va v1 v2 ->
  forall l1 l2, self l1 l2 ->
  de (pair_alike eq self) (insert_property ps1 l1 k1 v1) (insert_property ps2 l2 k2 v2).
Proof.
  intros H K V. induction H as [|p1 p2 ps1 ps2 PP H IH]; intros l1 l2 S; cbn [insert_property].
  { apply a_ok. constructor; [reflexivity|exact S]. }
  rewrite (sp_value _ _ _ _ K).
  assert (E : pr_name p1 = pr_name p2 /\ pr_flatten p1 = pr_flatten p2 /\ pr_option p1 = pr_option p2
     /\ pr_decode p1 = pr_decode p2 /\ f_attr (pr_field p1) = f_attr (pr_field p2)
     /\ type_alike R RL (f_impl (pr_field p1)) (f_impl (pr_field p2))).
  { inv PP. cbn [pr_name pr_flatten pr_option pr_decode pr_field].
    match goal with X : AlikeProps.fl _ _ _ _ |- _ => destruct X end. repeat split; auto; apply H2. }
  destruct E as [-> [-> [-> [-> [-> I]]]]].
  destruct (pr_flatten p2).
  - pose proof (get_field_alike (f_attr (pr_field p2)) _ _ S) as G.
    inv G; [apply a_panic|]. eapply a_bind; [apply (ta_insert_property _ _ _ _ I); eassumption|].
    intros [t1 x1] [t2 x2] X. inv X. destruct t2.
    + apply a_ok. constructor; [reflexivity|]. apply set_field_alike; assumption.
    + apply IH, set_field_alike; assumption.
  - destruct (text_eqb _ _); [|apply IH, S].
    eapply a_map; [apply a_decode_value; [exact I|exact V]|]. intros a b X. constructor; [reflexivity|].
    apply set_field_alike; [|exact S]. destruct (pr_option p2); [exact X|constructor; exact X].
Qed.

Lemma a_on_self f1 f2 x1 x2 : (forall l1 l2, self l1 l2 -> de (pair_alike eq self) (f1 l1) (f2 l2)) ->
  dv x1 x2 -> de (pair_alike eq dv) (on_self f1 x1) (on_self f2 x2).
Proof.
  intros F X. inv X; cbn [on_self]; try apply a_panic.
  eapply a_map; [apply F; eassumption|]. intros [b1 y1] [b2 y2] Y. inv Y.
  constructor; [reflexivity|constructor; assumption].
Qed.

Lemma partial_compatible_alike s1 s2 : st s1 s2 -> partial_compatible s1 = partial_compatible s2.
Proof.
  intro S. inv S. unfold partial_compatible. flds.
  repeat match goal with
  | X : Forall2 _ ?l ?l' |- context [is_nil ?l] => rewrite (F2_nil _ _ _ X)
  | X : opt_alike _ ?o ?o' |- context [is_some ?o] => rewrite (opt_some _ _ _ X)
  end.
  match goal with X : Forall2 prop_alike ?l ?l' |- context [forallb ?f ?l] =>
    replace (forallb f l) with (forallb (fun p => pr_option p || pr_flatten p) l')
      by (symmetry; eapply F2_forallb; [|exact X]; intros ? ? Y; inv Y; reflexivity) end.
  match goal with X : Forall2 child_alike ?l ?l' |- context [forallb ?f ?l] =>
    replace (forallb f l) with (forallb child_can_partial l')
      by (symmetry; eapply F2_forallb; [|exact X]; intros ? ? Y; inv Y; reflexivity) end.
  reflexivity.
Qed.

(** ** Items *)

Notation dr := (derived_alike R RL).

Lemma emit_struct_alike named s1 s2 : st s1 s2 ->
  opt_alike dr (emit_struct kebab named s1) (emit_struct kebab named s2).
Proof.
  intro S. unfold emit_struct. rewrite (tuple_ok_alike _ _ S), (unwraps_compile_alike _ _ S),
    (partial_compatible_alike _ _ S).
  destruct ((named || tuple_ok s2) && unwraps_compile kebab s2); [|constructor].
  constructor. split; cbn [dr_node dr_children dr_insert_child dr_insert_property].
  - apply a_struct_node, S.
  - pose proof S as S'. inv S'. flds.
    repeat match goal with X : Forall2 _ ?l ?l' |- context [is_nil ?l] => rewrite (F2_nil _ _ _ X) end.
    destruct (negb ha && negb hp && is_nil s3 && is_nil n2 && is_nil t2); constructor.
    apply a_struct_document, S.
  - destruct (partial_compatible s2); constructor. intros x1 x2 n1 n2 X N.
    apply a_on_self; [|exact X]. intros l1 l2 LL. apply a_insert_child; try assumption.
    inv S. flds. assumption.
  - destruct (partial_compatible s2); constructor. intros x1 x2 k1 k2 v1 v2 X K V.
    apply a_on_self; [|exact X]. intros l1 l2 LL. apply a_insert_property; try assumption.
    inv S. flds. assumption.
Qed.

Lemma has_content_alike n1 n2 : node_alike R n1 n2 -> has_content n1 = has_content n2.
Proof.
  intro H. inv H. unfold has_content. cbn [n_arguments n_properties n_children].
  repeat match goal with
  | X : Forall2 _ ?l ?l' |- context [is_nil ?l] => rewrite (F2_nil _ _ _ X)
  | X : opt_alike _ ?o ?o' |- context [is_some ?o] => rewrite (opt_some _ _ _ X)
  end. reflexivity.
Qed.

Lemma a_new_type id i1 i2 : type_alike R RL i1 i2 ->
  node_impl_alike R dv (new_type_node id i1) (new_type_node id i2).
Proof.
  intros I n1 n2 N. unfold new_type_node. rewrite (has_content_alike _ _ (sp_value _ _ _ _ N)).
  destruct (has_content (s_value n2)).
  - eapply a_map; [apply (ta_node _ _ _ _ I), N|]. intros a b X. constructor. apply F2_one.
    constructor; [reflexivity|constructor; exact X].
  - apply a_ok. constructor. apply F2_one. constructor; [reflexivity|constructor].
Qed.

Inductive vk_alike : variant_kind Sp1 L1 -> variant_kind Sp2 L2 -> Prop :=
| VKA_unit : vk_alike VkUnit VkUnit
| VKA_nested o i1 i2 : type_alike R RL i1 i2 -> vk_alike (VkNested o i1) (VkNested o i2)
| VKA_tuple s1 s2 : st s1 s2 -> vk_alike (VkTuple s1) (VkTuple s2)
| VKA_named s1 s2 : st s1 s2 -> vk_alike (VkNamed s1) (VkNamed s2).

Inductive vr_alike : variant Sp1 L1 -> variant Sp2 L2 -> Prop :=
| VRA id n k1 k2 : vk_alike k1 k2 -> vr_alike (Variant id n k1) (Variant id n k2).

Lemma a_enum_item e id s1 s2 : st s1 s2 ->
  node_impl_alike R dv (decode_enum_item kebab e id s1) (decode_enum_item kebab e id s2).
Proof.
  intros S n1 n2 N. unfold decode_enum_item.
  eapply a_bind; [apply a_args; eassumption|]. intros xs1 xs2 XS.
  eapply a_bind; [apply a_props; eassumption|]. intros ys1 ys2 YS.
  eapply a_bind; [apply a_struct_children; [exact S|constructor; exact (sp_span _ _ _ _ N)|]|].
  - apply node_children_alike, (sp_value _ _ _ _ N).
  - intros zs1 zs2 ZS. apply a_ok. constructor. apply tuple_values_alike; [exact S|].
    repeat apply F2_app; try assumption. apply assign_extra_alike, S.
Qed.

Lemma variant_node_alike e v1 v2 : vr_alike v1 v2 ->
  opt_alike (node_impl_alike R dv) (variant_node kebab e v1) (variant_node kebab e v2).
Proof.
  intro V. inv V. unfold variant_node. cbn [va_kind va_ident].
  match goal with X : vk_alike _ _ |- _ => inv X end.
  - constructor. intros n1 n2 N c1 c2 C. constructor; [apply flag_alike; assumption|].
    constructor. constructor. constructor.
  - destruct o; constructor; intros n1 n2 N.
    + rewrite (has_content_alike _ _ (sp_value _ _ _ _ N)). destruct (has_content (s_value n2)).
      * eapply a_map; [eapply ta_node; eassumption|]. intros a b X. constructor. apply F2_one.
        constructor. exact X.
      * apply a_ok. constructor. apply F2_one. constructor.
    + eapply a_map; [eapply ta_node; eassumption|]. intros a b X. constructor. apply F2_one. exact X.
  - match goal with X : st _ _ |- _ => rename X into S end.
    rewrite (tuple_ok_alike _ _ S), (unwraps_compile_alike _ _ S).
    assert (E : no_specials s1 = no_specials s2).
    { inv S. unfold no_specials. flds.
      repeat match goal with X : Forall2 _ ?l ?l' |- context [is_nil ?l] => rewrite (F2_nil _ _ _ X) end.
      reflexivity. }
    rewrite E. destruct (no_specials s2 && tuple_ok s2 && unwraps_compile kebab s2); constructor.
    apply a_enum_item, S.
  - constructor.
Qed.

Lemma branches_alike e vs1 vs2 : Forall2 vr_alike vs1 vs2 ->
  opt_alike (Forall2 (pair_alike eq (node_impl_alike R dv)))
    (variant_branches kebab e vs1) (variant_branches kebab e vs2).
Proof.
  intro H. induction H as [|v1 v2 vs1 vs2 VV H IH]; cbn [variant_branches]; [constructor; constructor|].
  pose proof (variant_node_alike e _ _ VV) as K. inv K; [constructor|].
  inv IH; [constructor|]. constructor. constructor; [|assumption].
  constructor; [inv VV; reflexivity|assumption].
Qed.

Lemma a_enum_node bs1 bs2 : Forall2 (pair_alike eq (node_impl_alike R dv)) bs1 bs2 ->
  node_impl_alike R dv (enum_node bs1) (enum_node bs2).
Proof.
  intros H n1 n2 N. unfold enum_node. rewrite (node_text _ _ N).
  assert (E : map fst bs1 = map fst bs2).
  { eapply F2_map_eq; [|exact H]. intros a b X. inv X. reflexivity. }
  rewrite E.
  assert (M : opt_alike (node_impl_alike R dv)
     (match_name (s_value (n_node_name (s_value n2))) bs1)
     (match_name (s_value (n_node_name (s_value n2))) bs2)).
  { clear E. induction H as [|x y l1 l2 XY H IH]; cbn [match_name]; [constructor|].
    inv XY. destruct (text_eqb _ _); [constructor; assumption|exact IH]. }
  inv M; [|match goal with X : node_impl_alike _ _ _ _ |- _ => apply X; exact N end].
  apply a_err. eapply err_conversion. apply node_name_alike, (sp_value _ _ _ _ N).
Qed.

Inductive def_alike : definition Sp1 L1 -> definition Sp2 L2 -> Prop :=
| DfA_struct s1 s2 : st s1 s2 -> def_alike (DefStruct s1) (DefStruct s2)
| DfA_tuple s1 s2 : st s1 s2 -> def_alike (DefTuple s1) (DefTuple s2)
| DfA_new id o i1 i2 : type_alike R RL i1 i2 -> def_alike (DefNewType id o i1) (DefNewType id o i2)
| DfA_unit s1 s2 : st s1 s2 -> def_alike (DefUnit s1) (DefUnit s2)
| DfA_enum id v1 v2 : Forall2 vr_alike v1 v2 -> def_alike (DefEnum id v1) (DefEnum id v2).

Lemma emit_decoder_alike d1 d2 : def_alike d1 d2 ->
  opt_alike dr (emit_decoder kebab d1) (emit_decoder kebab d2).
Proof.
  intro D. inv D; cbn [emit_decoder]; try (apply emit_struct_alike; assumption).
  - constructor. split; cbn [dr_node dr_children dr_insert_child dr_insert_property]; try constructor.
    apply a_new_type. assumption.
  - match goal with X : Forall2 vr_alike _ _ |- _ => pose proof (branches_alike id _ _ X) as K end.
    inv K; constructor. split; cbn [dr_node dr_children dr_insert_child dr_insert_property]; try constructor.
    apply a_enum_node. assumption.
Qed.

Lemma lone_extra_alike s1 s2 : st s1 s2 ->
  opt_alike (pair_alike fl eq) (lone_extra s1) (lone_extra s2).
Proof.
  intro S. unfold lone_extra. pose proof (all_fields_alike R RL _ _ S) as F.
  assert (X : Forall2 (pair_alike fl eq) (st_extra s1) (st_extra s2)) by (inv S; flds; assumption).
  inv F; [constructor|].
  match goal with Y : Forall2 fl _ _ |- _ => inv Y end; [|constructor].
  inv X; [constructor|].
  match goal with Y : Forall2 _ ?l ?l' |- context [match ?l with _ => _ end] => inv Y end; constructor. assumption.
Qed.

Lemma variant_skip_alike a1 a2 : Forall2 (attr_alike RL) a1 a2 -> variant_skip a1 = variant_skip a2.
Proof. intro H. unfold variant_skip. eapply F2_existsb; [|exact H]. intros a b X. inv X; reflexivity. Qed.

Lemma variant_emitted_alike a1 a2 : Forall2 (attr_alike RL) a1 a2 -> variant_emitted a1 = variant_emitted a2.
Proof.
  intro H. unfold variant_emitted. induction H as [|a b l1 l2 X H IH]; cbn [flat_map]; [reflexivity|].
  rewrite IH. inv X; reflexivity.
Qed.

Lemma container_emitted_alike a1 a2 : Forall2 (attr_alike RL) a1 a2 -> container_emitted a1 = container_emitted a2.
Proof.
  intro H. unfold container_emitted. induction H as [|a b l1 l2 X H IH]; cbn [flat_map]; [reflexivity|].
  rewrite IH. inv X; reflexivity.
Qed.

Lemma variant_new_alike v1 v2 : variant_alike R RL v1 v2 ->
  sum_alike (pair_alike vr_alike eq) (variant_new kebab v1) (variant_new kebab v2).
Proof.
  intro V. destruct V as [id a1 a2 f1 f2 A F]. unfold variant_new. cbn [sv_ident sv_fields].
  destruct F as [l1 l2 X|l1 l2 X|].
  - destruct (struct_new_alike R RL kebab id _ _ X) as [[s1 e1] [s2 e2] K|e]; [|constructor].
    inv K. repeat constructor. assumption.
  - destruct (struct_new_alike R RL kebab id _ _ X) as [[s1 e1] [s2 e2] K|e]; [|constructor].
    inv K. match goal with Y : st _ _ |- _ => rename Y into S end.
    constructor. constructor; [|reflexivity]. constructor.
    destruct (lone_extra_alike _ _ S) as [|[g1 o1] [g2 o2] G]; [constructor; exact S|].
    inv G. constructor. match goal with Y : AlikeProps.fl _ _ _ _ |- _ => exact (proj2 Y) end.
  - repeat constructor.
Qed.

Lemma enum_new_alike vs1 vs2 : Forall2 (variant_alike R RL) vs1 vs2 ->
  sum_alike (pair_alike (Forall2 vr_alike) eq) (enum_new kebab vs1) (enum_new kebab vs2).
Proof.
  intro H. induction H as [|v1 v2 vs1 vs2 VV H IH]; cbn [enum_new]; [repeat constructor|].
  assert (A : Forall2 (attr_alike RL) (sv_attrs v1) (sv_attrs v2)) by (inv VV; assumption).
  rewrite (variant_skip_alike _ _ A), (variant_emitted_alike _ _ A).
  destruct (variant_skip (sv_attrs v2)).
  - destruct IH as [[l1 e1] [l2 e2] K|e]; [|constructor]. inv K. repeat constructor. assumption.
  - destruct (variant_new_alike _ _ VV) as [[x1 e1] [x2 e2] K|e]; [|constructor]. inv K.
    destruct IH as [[l1 e1] [l2 e3] K|e]; [|constructor]. inv K. repeat constructor; assumption.
Qed.

Lemma definition_alike i1 i2 : item_alike R RL i1 i2 ->
  sum_alike (pair_alike def_alike eq) (definition_parse kebab i1) (definition_parse kebab i2).
Proof.
  intro I. destruct I as [id c1 c2 f1 f2 C F|id c1 c2 v1 v2 C V]; cbn [definition_parse].
  - destruct F as [l1 l2 X|l1 l2 X|].
    + rewrite (container_emitted_alike _ _ C).
      destruct (struct_new_alike R RL kebab id _ _ X) as [[s1 e1] [s2 e2] K|e]; [|constructor].
      inv K. repeat constructor. assumption.
    + rewrite (container_emitted_alike _ _ C).
      destruct (struct_new_alike R RL kebab id _ _ X) as [[s1 e1] [s2 e2] K|e]; [|constructor].
      inv K. match goal with Y : st _ _ |- _ => rename Y into S end.
      constructor. constructor; [|reflexivity].
      destruct (lone_extra_alike _ _ S) as [|[g1 o1] [g2 o2] G]; [constructor; exact S|].
      inv G. constructor. match goal with Y : AlikeProps.fl _ _ _ _ |- _ => exact (proj2 Y) end.
    + rewrite (container_emitted_alike _ _ C).
      destruct (struct_new_alike R RL kebab id [] [] (Forall2_nil _)) as [[s1 e1] [s2 e2] K|e]; [|constructor].
      inv K. repeat constructor. assumption.
  - rewrite (container_emitted_alike _ _ C).
    destruct (enum_new_alike _ _ V) as [[l1 e1] [l2 e2] K|e]; [|constructor]. inv K.
    repeat constructor. assumption.
Qed.

Theorem derive_alike i1 i2 : item_alike R RL i1 i2 ->
  opt_alike dr (decode_derive kebab i1) (decode_derive kebab i2).
Proof.
  intro I. unfold decode_derive.
  destruct (definition_alike _ _ I) as [[d1 e1] [d2 e2] K|e]; [|constructor]. inv K.
  destruct e2; [|constructor]. apply emit_decoder_alike. assumption.
Qed.

End Alike.
