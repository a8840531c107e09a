(** Derived decoders do what DeriveSpec.v says. *)

From Coq Require Import NArith List Bool String Lia Arith.
From Verif Require Import Chars Ast Errors Chumsky Kdl Decode Scalar DecodeSpec DeriveDef Derive
  DeriveSpec LexIdent DecodeProps ScalarProps.
Import ListNotations.

(** ** The monad *)

Lemma d_bind_ok {Sp A B} (m : dec Sp A) (f : A -> dec Sp B) c c' b :
  d_bind m f c = (c', DOk b) <-> exists a c1, m c = (c1, DOk a) /\ f a c1 = (c', DOk b).
Proof.
  unfold d_bind. destruct (m c) as [c1 [a|e|]] eqn:E; split; intros H.
  - exists a, c1. auto.
  - destruct H as (a' & c2 & H & K). injection H as <- <-. exact K.
  - discriminate.
  - destruct H as (a' & c2 & H & K). discriminate.
  - discriminate.
  - destruct H as (a' & c2 & H & K). discriminate.
Qed.

Lemma d_map_ok {Sp A B} (g : A -> B) (m : dec Sp A) c c' b :
  d_map g m c = (c', DOk b) <-> exists a, m c = (c', DOk a) /\ b = g a.
Proof.
  unfold d_map. rewrite d_bind_ok. unfold d_ok. split.
  - intros (a & c1 & H & K). injection K as <- <-. exists a. auto.
  - intros (a & H & ->). exists a, c'. auto.
Qed.

Lemma d_ok_ok {Sp A} (a : A) (c c' : context Sp) b : d_ok a c = (c', DOk b) <-> c' = c /\ b = a.
Proof. unfold d_ok. split; [intros H; injection H; auto|intros [-> ->]; reflexivity]. Qed.

Lemma d_err_ok {Sp A} (e : derror Sp) c c' (b : A) : d_err e c = (c', DOk b) <-> False.
Proof. unfold d_err. split; [discriminate|tauto]. Qed.

Lemma d_emit_ok {Sp} (e : derror Sp) c c' b :
  d_emit e c = (c', DOk b) <-> c' = with_errors c [e].
Proof.
  unfold d_emit, emit_error, with_errors. destruct b.
  split; [intros H; injection H; auto|intros ->; reflexivity].
Qed.

Lemma d_collect_ok {Sp A B} (f : A -> dec Sp B) l : forall before c c' ys,
  d_collect f l c = (c', DOk ys) <-> in_turn (gives f) before l c ys c'.
Proof.
  induction l as [|a l IH]; intros before c c' ys; cbn [d_collect].
  - rewrite d_ok_ok. split.
    + intros [-> ->]. constructor.
    + intros H. inversion H. auto.
  - rewrite d_bind_ok. split.
    + intros (b & c1 & H & K). rewrite d_bind_ok in K. destruct K as (bs & c2 & K & J).
      apply d_ok_ok in J. destruct J as [-> ->]. econstructor; [exact H|]. apply IH, K.
    + intros H. inversion H; subst. exists y, c1. split; [assumption|].
      apply d_bind_ok. exists ys0, c'. split; [apply (IH (before ++ [a])); assumption|reflexivity].
Qed.

(** ** Arguments *)

Lemma arg_fields_ok {Sp L} (n : snode Sp) (l : list (arg Sp L)) : forall it before c c' xs it',
  arg_fields n l it c = (c', DOk (xs, it')) <->
  exists us vs,
    in_turn (gives decodes_arg) before (combine l it) c us c'
    /\ Forall2 (fun (a : arg Sp L) y => absent (ar_default a) (ar_kind_option a) y)
         (skipn (List.length it) l) vs
    /\ xs = us ++ vs /\ it' = skipn (List.length l) it.
Proof.
  induction l as [|a l IH]; intros it before c c' xs it'; cbn [arg_fields].
  - rewrite d_ok_ok. split.
    + intros [-> H]. injection H as -> ->. exists [], []. cbn. rewrite skipn_nil.
      repeat split; constructor.
    + intros (us & vs & H & K & -> & ->). cbn in H. inversion H; subst.
      rewrite skipn_nil in K. inversion K. cbn. auto.
  - rewrite d_bind_ok. split.
    + intros ([x it1] & c1 & H & K). rewrite d_map_ok in K.
      destruct K as ([xs1 it2] & K & J). injection J as -> ->.
      destruct it as [|v it].
      * assert (A : c1 = c /\ it1 = [] /\ absent (ar_default a) (ar_kind_option a) x).
        { destruct (ar_default a) as [d|] eqn:D.
          - apply d_ok_ok in H. destruct H as [-> H]. injection H as -> ->.
            repeat split. constructor. reflexivity.
          - destruct (ar_kind_option a) eqn:O; [|apply d_err_ok in H; contradiction].
            apply d_ok_ok in H. destruct H as [-> H]. injection H as -> ->.
            repeat split. constructor; reflexivity. }
        destruct A as (-> & -> & A).
        apply (IH [] before) in K. destruct K as (us & vs & K1 & K2 & -> & ->).
        assert (combine l (@nil (value Sp)) = []) as E by (destruct l; reflexivity).
        rewrite E in K1. inversion K1; subst.
        exists [], (x :: vs). cbn [combine List.length skipn app] in *.
        split; [constructor|]. split; [constructor; assumption|].
        split; [reflexivity|]. rewrite skipn_nil. reflexivity.
      * apply d_map_ok in H. destruct H as (y & H & J). injection J as -> ->.
        apply (IH it (before ++ [(a, v)])) in K. destruct K as (us & vs & K1 & K2 & -> & ->).
        exists (y :: us), vs. cbn. repeat split; auto. econstructor; [exact H|exact K1].
    + intros (us & vs & H & K & -> & ->). destruct it as [|v it].
      * cbn in H. inversion H; subst. cbn [List.length skipn] in K. inversion K; subst.
        exists (y, []), c'. split.
        -- inversion H2 as [d D|D O]; subst.
           ++ rewrite D. reflexivity.
           ++ rewrite D, O. reflexivity.
        -- apply d_map_ok. exists (l', []). split; [|reflexivity].
           apply (IH [] before). exists [], l'. cbn.
           assert (combine l (@nil (value Sp)) = []) as E by (destruct l; reflexivity).
           rewrite E. split; [constructor|]. split; [assumption|]. split; [reflexivity|].
           symmetry. apply skipn_nil.
      * cbn [combine] in H. inversion H; subst. exists (y, it), c1. split.
        -- apply d_map_ok. exists y. auto.
        -- apply d_map_ok. exists (ys ++ vs, skipn (List.length l) it). split; [|reflexivity].
           apply (IH it (before ++ [(a, v)])). exists ys, vs. auto.
Qed.

Lemma decode_args_ok {Sp L} (s : struct Sp L) (n : snode Sp) c c' out :
  decode_args s n c = (c', DOk out) <-> args_right (st_arguments s) (st_var_args s) (n_arguments (s_value n)) c out c'.
Proof.
  unfold decode_args, args_right. rewrite d_bind_ok. split.
  - intros ([xs it] & c1 & H & K). apply (arg_fields_ok n _ _ []) in H.
    destruct H as (us & vs & H1 & H2 & -> & ->). exists us, vs, c1.
    split; [assumption|]. split; [assumption|].
    destruct (st_var_args s) as [[f m]|].
    + apply d_map_ok in K. destruct K as (ys & K & ->). exists ys.
      rewrite app_assoc. split; [|reflexivity]. apply d_collect_ok, K.
    + destruct (skipn (List.length (st_arguments s)) (n_arguments (s_value n))) eqn:E; [|apply d_err_ok in K; contradiction].
      apply d_ok_ok in K. destruct K as [-> ->]. split; [|auto].
      destruct (le_lt_dec (List.length (n_arguments (s_value n))) (List.length (st_arguments s)))
        as [J|J]; [exact J|exfalso].
      apply (f_equal (@List.length _)) in E. rewrite skipn_length in E. cbn in E. lia.
  - intros (xs & ys & c1 & H1 & H2 & H3).
    exists (xs ++ ys, skipn (List.length (st_arguments s)) (n_arguments (s_value n))), c1. split.
    + apply (arg_fields_ok n _ _ []). exists xs, ys. auto.
    + destruct (st_var_args s) as [[f m]|].
      * destruct H3 as (zs & H3 & ->). apply d_map_ok. exists zs. rewrite app_assoc.
        split; [|reflexivity]. apply (d_collect_ok _ _ []), H3.
      * destruct H3 as (J & -> & ->). rewrite skipn_all2 by assumption. reflexivity.
Qed.

(** ** Properties *)

Lemma prop_branches_skip {Sp L} (ps : list (prop Sp L)) : forall slots name v c c' t slots',
  List.length slots = List.length ps ->
  Forall (fun sl => match sl with PFlat _ => False | _ => True end) slots ->
  prop_branches ps slots name v c = (c', DOk (t, slots')) <->
  (~ In (s_value name) (map pr_name ps) /\ t = false /\ slots' = slots /\ c' = c)
  \/ (t = true /\ exists pre p post spre sl spost x,
        ps = pre ++ p :: post /\ slots = spre ++ sl :: spost
        /\ List.length spre = List.length pre
        /\ ~ In (s_value name) (map pr_name pre) /\ pr_name p = s_value name
        /\ decode_value (pr_decode p) (pr_option p) (f_impl (pr_field p)) v c = (c', DOk x)
        /\ slots' = spre ++ (if pr_option p then POption x true else PPlain (Some x)) :: spost).
Proof.
  induction ps as [|p ps IH]; intros slots name v c c' t slots' Len NF.
  - destruct slots; [|discriminate]. cbn [prop_branches]. rewrite d_ok_ok. split.
    + intros [-> H]. injection H as -> ->. left. cbn. tauto.
    + intros [(A & -> & -> & ->)|(-> & pre & q & post & spre & sl & spost & x & H & _)].
      * auto.
      * destruct pre; discriminate.
  - destruct slots as [|sl slots]; [discriminate|]. injection Len as Len.
    inversion NF as [|? ? Nsl Nrest]; subst.
    assert (E : prop_branches (p :: ps) (sl :: slots) name v =
      if text_eqb (s_value name) (pr_name p) then
        d_map (fun x => (true, (if pr_option p then POption x true else PPlain (Some x)) :: slots))
          (decode_value (pr_decode p) (pr_option p) (f_impl (pr_field p)) v)
      else d_map (fun '(t, ss) => (t, sl :: ss)) (prop_branches ps slots name v)).
    { cbn [prop_branches]. destruct sl; [contradiction|reflexivity|reflexivity]. }
    rewrite E. destruct (text_eqb_reflect (s_value name) (pr_name p)) as [Q|Q].
    + rewrite d_map_ok. split.
      * intros (x & H & J). injection J as -> ->. right. split; [reflexivity|].
        exists [], p, ps, [], sl, slots, x. cbn. repeat split; auto.
      * intros [(A & _)|(-> & pre & q & post & spre & sl' & spost & x & H1 & H2 & H3 & H4 & H5 & H6 & ->)].
        { exfalso. apply A. left. auto. }
        destruct pre as [|p' pre].
        -- injection H1 as <- <-. destruct spre; [|discriminate]. injection H2 as <- <-.
           exists x. auto.
        -- injection H1 as <- ->. exfalso. apply H4. left. auto.
    + rewrite d_map_ok. split.
      * intros ([t1 ss] & H & J). injection J as -> ->.
        apply IH in H; [|assumption|assumption].
        destruct H as [(A & -> & -> & ->)|(-> & pre & q & post & spre & sl' & spost & x & -> & -> & H3 & H4 & H5 & H6 & ->)].
        -- left. cbn. split; [intros [F|F]; auto|auto].
        -- right. split; [reflexivity|].
           exists (p :: pre), q, post, (sl :: spre), sl', spost, x. cbn.
           repeat split; auto. intros [F|F]; auto.
      * intros [(A & -> & -> & ->)|(-> & pre & q & post & spre & sl' & spost & x & H1 & H2 & H3 & H4 & H5 & H6 & ->)].
        -- exists (false, slots). split; [|reflexivity]. apply IH; [assumption|assumption|].
           left. cbn in A. tauto.
        -- destruct pre as [|p' pre].
           { injection H1 as <- <-. congruence. }
           destruct spre as [|sl0 spre]; [discriminate|].
           injection H1 as <- ->. injection H2 as <- ->. injection H3 as H3.
           exists (true, spre ++ (if pr_option q then POption x true else PPlain (Some x)) :: spost).
           split; [|reflexivity]. apply IH; [assumption|assumption|].
           right. split; [reflexivity|].
           exists pre, q, post, spre, sl', spost, x. cbn in H4. repeat split; auto.
Qed.

Lemma text_eqb_refl t : text_eqb t t = true.
Proof. destruct (text_eqb_reflect t t); congruence. Qed.

Definition put {Sp L} (p : prop Sp L) (x : dval L) : prop_slot L :=
  if pr_option p then POption x true else PPlain (Some x).

Lemma prop_step {Sp L} (ps : list (prop Sp L)) (g : prop Sp L -> prop_slot L) name v c c' t slots' :
  NoDup (map pr_name ps) ->
  (forall p, In p ps -> match g p with PFlat _ => False | _ => True end) ->
  prop_branches ps (map g ps) name v c = (c', DOk (t, slots')) <->
  (t = false /\ ~ In (s_value name) (map pr_name ps) /\ slots' = map g ps /\ c' = c)
  \/ (t = true /\ exists p x, In p ps /\ pr_name p = s_value name
        /\ decode_value (pr_decode p) (pr_option p) (f_impl (pr_field p)) v c = (c', DOk x)
        /\ slots' = map (fun q => if text_eqb (pr_name q) (s_value name) then put q x else g q) ps).
Proof.
  intros ND NF. rewrite prop_branches_skip.
  2: now rewrite map_length.
  2: { apply Forall_forall. intros sl H. apply in_map_iff in H. destruct H as (p & <- & H).
       now apply NF. }
  assert (U : forall pre p post x, ps = pre ++ p :: post -> pr_name p = s_value name ->
    map g pre ++ put p x :: map g post =
    map (fun q => if text_eqb (pr_name q) (s_value name) then put q x else g q) ps).
  { intros pre p post x -> Q. rewrite map_app, map_cons, Q, text_eqb_refl.
    rewrite map_app, map_cons in ND. pose proof (NoDup_remove_2 _ _ _ ND) as N. rewrite Q in N.
    f_equal; [|f_equal]; apply map_ext_in; intros q I;
      destruct (text_eqb_reflect (pr_name q) (s_value name)) as [F|F]; auto;
      exfalso; apply N, in_or_app; [left|right]; rewrite <- F; now apply in_map. }
  split.
  - intros [(A & -> & -> & ->)|(-> & pre & p & post & spre & sl & spost & x & -> & H2 & H3 & H4 & H5 & H6 & ->)].
    + left. auto.
    + right. split; [reflexivity|]. exists p, x. split; [apply in_elt|]. split; [assumption|].
      split; [assumption|]. rewrite <- (U pre p post x eq_refl H5).
      rewrite map_app, map_cons in H2.
      apply app_eq_app in H2. destruct H2 as (l & [[E1 E2]|[E1 E2]]).
      * assert (l = []) as ->.
        { apply (f_equal (@List.length _)) in E1. rewrite app_length, map_length in E1.
          destruct l; [reflexivity|cbn in E1; lia]. }
        rewrite app_nil_r in E1. subst spre. injection E2 as _ <-. reflexivity.
      * assert (l = []) as ->.
        { apply (f_equal (@List.length _)) in E1. rewrite app_length, map_length in E1.
          destruct l; [reflexivity|cbn in E1; lia]. }
        rewrite app_nil_r in E1. subst spre. injection E2 as _ <-. reflexivity.
  - intros [(-> & A & -> & ->)|(-> & p & x & I & Q & D & ->)].
    + left. auto.
    + right. split; [reflexivity|]. apply in_split in I. destruct I as (pre & post & E).
      exists pre, p, post, (map g pre), (g p), (map g post), x.
      split; [assumption|]. split; [subst ps; now rewrite map_app, map_cons|].
      split; [now rewrite map_length|]. split.
      { subst ps. rewrite map_app, map_cons in ND. pose proof (NoDup_remove_2 _ _ _ ND) as N.
        rewrite Q in N. intros F. apply N, in_or_app. auto. }
      split; [assumption|]. split; [assumption|]. symmetry. now apply U.
Qed.

(** The value that the properties so far gave to a name. *)
Fixpoint found {Sp L V} (name : text) (kvs : list (spanned text Sp * V)) (ts : list (to L))
  : option (dval L) :=
  match kvs, ts with
  | kv :: kvs', To_field x :: ts' =>
      if text_eqb (s_value (fst kv)) name then Some x else found name kvs' ts'
  | _ :: kvs', To_rest _ _ :: ts' => found name kvs' ts'
  | _, _ => None
  end.

Lemma found_snoc {Sp L V} name (kvs : list (spanned text Sp * V)) (ts : list (to L)) kv t :
  List.length ts = List.length kvs ->
  found name (kvs ++ [kv]) (ts ++ [t]) =
  match found name kvs ts with
  | Some x => Some x
  | None => match t with
            | To_field x => if text_eqb (s_value (fst kv)) name then Some x else None
            | To_rest _ _ => None
            end
  end.
Proof.
  revert ts. induction kvs as [|kv' kvs IH]; intros [|t' ts] E; try discriminate; cbn.
  - destruct t; reflexivity.
  - injection E as E. destruct t' as [y|k y]; [|now apply IH].
    destruct (text_eqb (s_value (fst kv')) name); [reflexivity|now apply IH].
Qed.

Lemma found_none {Sp L V} name (kvs : list (spanned text Sp * V)) (ts : list (to L)) :
  ~ In name (names_of kvs) -> found name kvs ts = None.
Proof.
  revert ts. induction kvs as [|kv kvs IH]; intros [|t ts] N; cbn; auto.
  cbn in N. destruct t as [x|k x]; [|apply IH; tauto].
  destruct (text_eqb_reflect (s_value (fst kv)) name); [tauto|apply IH; tauto].
Qed.

Lemma in_turn_length {Sp X Y} (R : list X -> X -> context Sp -> Y -> context Sp -> Prop)
    before xs c ys c' : in_turn R before xs c ys c' -> List.length ys = List.length xs.
Proof. induction 1; cbn; congruence. Qed.

Definition slot_after {Sp L} (p : prop Sp L) (o : option (dval L)) : prop_slot L :=
  match o with Some x => put p x | None => prop_start p end.

Lemma not_flat {Sp L} (p : prop Sp L) o : pr_flatten p = false ->
  match slot_after p o with PFlat _ => False | _ => True end.
Proof.
  intros F. unfold slot_after, put, prop_start. rewrite F.
  destruct o; destruct (pr_option p); exact I.
Qed.

Lemma prop_loop_ok {Sp L} (s : struct Sp L) : plain_props (st_properties s) ->
  forall kvs before ts0 rest c c' slots' rest',
  List.length ts0 = List.length before ->
  NoDup (names_of (before ++ kvs)) ->
  prop_loop s (map (fun p => slot_after p (found (pr_name p) before ts0)) (st_properties s))
    rest kvs c = (c', DOk (slots', rest')) <->
  exists ts, in_turn (prop_taken (st_properties s) (st_var_props s)) before kvs c ts c'
    /\ slots' = map (fun p => slot_after p (found (pr_name p) (before ++ kvs) (ts0 ++ ts)))
                  (st_properties s)
    /\ rest' = rest ++ rests ts.
Proof.
  intros [ND NF]. rewrite Forall_forall in NF.
  assert (NF' : forall (b : list (spanned text Sp * value Sp)) t p, In p (st_properties s) ->
     match slot_after p (found (pr_name p) b t : option (dval L)) with
     | PFlat _ => False | _ => True end).
  { intros b t p I. apply not_flat, NF, I. }
  induction kvs as [|[k v] kvs IH]; intros before ts0 rest c c' slots' rest' Len NK.
  - cbn [prop_loop]. rewrite d_ok_ok. split.
    + intros [-> H]. injection H as -> ->. exists []. rewrite !app_nil_r.
      split; [constructor|auto].
    + intros (ts & H & -> & ->). inversion H; subst. rewrite !app_nil_r. auto.
  - cbn [prop_loop]. rewrite d_bind_ok.
    assert (Nk : ~ In (s_value k) (names_of before)).
    { unfold names_of in NK. rewrite map_app in NK. cbn in NK.
      pose proof (NoDup_remove_2 _ _ _ NK) as N. intros F. apply N, in_or_app. auto. }
    assert (NK' : NoDup (names_of ((before ++ [(k, v)]) ++ kvs))).
    { now rewrite <- app_assoc. }
    assert (Len' : forall t : to L,
       List.length (ts0 ++ [t]) = List.length (before ++ [(k, v)])).
    { intros t. rewrite !app_length. cbn. lia. }
    assert (Ux : forall x : dval L,
      map (fun q => if text_eqb (pr_name q) (s_value k) then put q x
                    else slot_after q (found (pr_name q) before ts0)) (st_properties s)
      = map (fun p => slot_after p (found (pr_name p) (before ++ [(k, v)]) (ts0 ++ [To_field x])))
          (st_properties s)).
    { intros x. apply map_ext. intros q. rewrite found_snoc by assumption. cbn [fst].
      destruct (text_eqb_reflect (pr_name q) (s_value k)) as [Q|Q].
      - rewrite Q, found_none by assumption. rewrite text_eqb_refl. reflexivity.
      - destruct (found (pr_name q) before ts0); [reflexivity|].
        destruct (text_eqb_reflect (s_value k) (pr_name q)); [congruence|reflexivity]. }
    assert (Ur : forall kk x : dval L,
      map (fun p => slot_after p (found (pr_name p) before ts0)) (st_properties s)
      = map (fun p => slot_after p (found (pr_name p) (before ++ [(k, v)]) (ts0 ++ [To_rest kk x])))
          (st_properties s)).
    { intros kk x. apply map_ext. intros q. rewrite found_snoc by assumption.
      destruct (found (pr_name q) before ts0); reflexivity. }
    split.
    + intros ([t slots1] & c1 & H & K).
      apply (prop_step _ _ _ _ _ _ _ _ ND (NF' before ts0)) in H.
      destruct H as [(-> & A & -> & ->)|(-> & p & x & I & Q & D & ->)].
      * destruct (st_var_props s) as [[f m]|] eqn:VP; [|apply d_err_ok in K; contradiction].
        apply d_bind_ok in K. destruct K as (kk & c1 & K1 & K).
        apply d_bind_ok in K. destruct K as (x & c2 & K2 & K).
        unfold d_convert in K1.
        destruct (ti_key_from_str (f_impl f) (s_value k)) as [kk'|e] eqn:KK;
          [|apply d_err_ok in K1; contradiction].
        apply d_ok_ok in K1. destruct K1 as [-> ->].
        rewrite (Ur kk' x) in K. apply IH in K; [|apply Len'|exact NK'].
        destruct K as (ts & K1 & -> & ->). exists (To_rest kk' x :: ts).
        split; [|split].
        -- econstructor; [|exact K1]. econstructor; eauto.
        -- now rewrite <- !app_assoc.
        -- cbn. now rewrite <- app_assoc.
      * rewrite (Ux x) in K. apply IH in K; [|apply Len'|exact NK'].
        destruct K as (ts & K1 & -> & ->). exists (To_field x :: ts).
        split; [|split].
        -- econstructor; [|exact K1]. econstructor; eauto.
        -- now rewrite <- !app_assoc.
        -- reflexivity.
    + intros (ts & H & -> & ->). inversion H as [|? ? ? ? c1 ? t ts1 H1 H2]; subst.
      inversion H1 as [k1 v1 p ? x ? I Q D|k1 v1 f m ? kk x ? N VP KK D]; subst.
      * exists (true, map (fun q => if text_eqb (pr_name q) (s_value k) then put q x
                    else slot_after q (found (pr_name q) before ts0)) (st_properties s)), c1.
        split.
        -- apply (prop_step _ _ _ _ _ _ _ _ ND (NF' before ts0)). right.
           split; [reflexivity|]. exists p, x. auto.
        -- cbn beta iota. rewrite (Ux x). apply IH; [apply Len'|exact NK'|].
           exists ts1. split; [exact H2|]. rewrite <- !app_assoc. split; reflexivity.
      * exists (false, map (fun p => slot_after p (found (pr_name p) before ts0))
                        (st_properties s)), c. split.
        -- apply (prop_step _ _ _ _ _ _ _ _ ND (NF' before ts0)). left. auto.
        -- cbn beta iota. rewrite VP. apply d_bind_ok. exists kk, c. split.
           { unfold d_convert. rewrite KK. reflexivity. }
           apply d_bind_ok. exists x, c1. split; [assumption|].
           rewrite (Ur kk x). apply IH; [apply Len'|exact NK'|].
           exists ts1. split; [exact H2|]. rewrite <- !app_assoc. split; reflexivity.
Qed.

Lemma collect_pure {Sp X Y} (f : X -> dec Sp Y) (R : X -> Y -> Prop) : forall xs c c' ys,
  (forall x c c' y, In x xs -> f x c = (c', DOk y) <-> c' = c /\ R x y) ->
  d_collect f xs c = (c', DOk ys) <-> c' = c /\ Forall2 R xs ys.
Proof.
  intros xs c c' ys H. rewrite (d_collect_ok f xs []).
  assert (G : forall before, in_turn (gives f) before xs c ys c' <-> c' = c /\ Forall2 R xs ys).
  { revert c c' ys. induction xs as [|x xs IH]; intros c c' ys before.
    - split.
      + intros K. inversion K; subst. auto.
      + intros [-> K]. inversion K; subst. constructor.
    - split.
      + intros K. inversion K as [|? ? ? ? c1 ? y ys1 K1 K2]; subst. apply H in K1; [|now left].
        destruct K1 as [-> K1]. apply IH in K2; [|intros; apply H; now right].
        destruct K2 as [-> K2]. auto.
      + intros [-> K]. inversion K as [|? y ? ys1 K1 K2]; subst. econstructor.
        * apply H; [now left|]. split; [reflexivity|exact K1].
        * apply IH; [intros; apply H; now right|]. auto. }
  apply G.
Qed.

Lemma prop_finish_ok {Sp L} (n : snode Sp) (p : prop Sp L) o c c' y : pr_flatten p = false ->
  prop_finish n (p, slot_after p o) c = (c', DOk y) <->
  c' = c /\ match o with
            | Some x => y = x
            | None => absent (pr_default p) (pr_option p) y
            end.
Proof.
  intros F. unfold prop_finish, slot_after, put, prop_start. rewrite F.
  assert (E : forall d : dval L, d_ok d c = (c', DOk y) <-> c' = c /\ y = d).
  { intros d. rewrite d_ok_ok. intuition congruence. }
  destruct o as [x|].
  - destruct (pr_option p); [|apply E]. destruct (pr_default p); apply E.
  - destruct (pr_option p) eqn:O; destruct (pr_default p) as [d|] eqn:D; rewrite ?E.
    + split; intros [-> H]; split; auto.
      * subst. now constructor.
      * inversion H; congruence.
    + split; intros [-> H]; split; auto.
      * subst. now constructor.
      * inversion H; congruence.
    + split; intros [-> H]; split; auto.
      * subst. now constructor.
      * inversion H; congruence.
    + rewrite d_err_ok. split; [tauto|]. intros [_ H]. inversion H; congruence.
Qed.

Lemma found_holds {Sp L} (s : struct Sp L) (p : prop Sp L) y :
  In p (st_properties s) ->
  forall kvs before c ts c', NoDup (names_of kvs) ->
  in_turn (prop_taken (st_properties s) (st_var_props s)) before kvs c ts c' ->
  match found (pr_name p) kvs ts with
  | Some x => y = x
  | None => absent (pr_default p) (pr_option p) y
  end <-> prop_holds kvs ts p y.
Proof.
  intros I. induction kvs as [|[k v] kvs IH]; intros before c ts c' ND H.
  - cbn. split.
    + intros A. apply PH_absent; auto.
    + intros A. inversion A as [i kv ? A1|]; subst; auto. destruct i; discriminate.
  - cbn in ND. apply NoDup_cons_iff in ND. destruct ND as [Nk ND].
    inversion H as [|? ? ? ? c1 ? t ts1 H1 H2]; subst. specialize (IH _ _ _ _ ND H2).
    assert (Tail : s_value k <> pr_name p ->
        prop_holds kvs ts1 p y <-> prop_holds ((k, v) :: kvs) (t :: ts1) p y).
    { intros Q. split; intros A.
      - inversion A as [i kv ? A1 A2 A3|? A1 A2]; subst.
        + now apply (PH_value _ _ _ (S i) kv).
        + apply PH_absent; auto. cbn. tauto.
      - inversion A as [i kv ? A1 A2 A3|? A1 A2]; subst.
        + destruct i as [|i]; [injection A1 as <-; cbn in A2; congruence|].
          now apply (PH_value _ _ _ i kv).
        + apply PH_absent; auto. cbn in A1. tauto. }
    inversion H1 as [k1 v1 q ? x ? Iq Q D|k1 v1 f m ? kk x ? N VP KK D]; subst.
    + cbn [found fst]. destruct (text_eqb_reflect (s_value k) (pr_name p)) as [E|E].
      * split.
        -- intros ->. apply (PH_value _ _ _ 0 (k, v)); auto.
        -- intros A. inversion A as [i kv ? A1 A2 A3|? A1 A2]; subst.
           ++ destruct i as [|i]; [now injection A3|].
              exfalso. apply Nk. rewrite E, <- A2.
              apply (in_map (fun kv : spanned text Sp * value Sp => s_value (fst kv))).
              cbn in A1. exact (nth_error_In _ _ A1).
           ++ exfalso. apply A1. cbn. auto.
      * rewrite IH. now apply Tail.
    + cbn [found]. rewrite IH. apply Tail. intros E. apply N. rewrite E. now apply in_map.
Qed.

Lemma Forall2_map_l {A B C} (f : A -> B) (R : B -> C -> Prop) xs ys :
  Forall2 R (map f xs) ys <-> Forall2 (fun x y => R (f x) y) xs ys.
Proof.
  revert ys. induction xs as [|x xs IH]; intros ys; cbn.
  - split; intros H; inversion H; constructor.
  - split; intros H; inversion H; subst; constructor; auto; now apply IH.
Qed.

Lemma Forall2_iff_in {A B} (R S : A -> B -> Prop) xs ys :
  (forall x y, In x xs -> R x y <-> S x y) -> Forall2 R xs ys <-> Forall2 S xs ys.
Proof.
  revert ys. induction xs as [|x xs IH]; intros ys H.
  - split; intros K; inversion K; constructor.
  - split; intros K; inversion K; subst; constructor.
    + apply H; [now left|assumption].
    + apply IH; [intros; apply H; now right|assumption].
    + apply H; [now left|assumption].
    + apply IH; [intros; apply H; now right|assumption].
Qed.

Lemma combine_map {A B} (f : A -> B) xs : combine xs (map f xs) = map (fun x => (x, f x)) xs.
Proof. induction xs; cbn; congruence. Qed.

Lemma decode_props_ok {Sp L} (s : struct Sp L) n c c' out :
  plain_props (st_properties s) -> NoDup (names_of (n_properties (s_value n))) ->
  decode_props s n c = (c', DOk out) <-> props_right (st_properties s) (st_var_props s) (n_properties (s_value n)) c out c'.
Proof.
  intros P NK. unfold decode_props, props_right.
  pose proof P as [ND NF]. rewrite Forall_forall in NF.
  assert (E : map prop_start (st_properties s) =
     map (fun p : prop Sp L => slot_after p (found (pr_name p) (@nil (spanned text Sp * value Sp)) []))
       (st_properties s)) by reflexivity.
  rewrite d_bind_ok.
  assert (Fin : forall ts c1 xs,
    in_turn (prop_taken (st_properties s) (st_var_props s)) [] (n_properties (s_value n)) c ts c1 ->
    d_collect (prop_finish n)
      (combine (st_properties s)
         (map (fun p => slot_after p (found (pr_name p) (n_properties (s_value n)) ts))
            (st_properties s))) c1 = (c', DOk xs) <->
    c' = c1 /\ Forall2 (prop_holds (n_properties (s_value n)) ts) (st_properties s) xs).
  { intros ts c1 xs H. rewrite combine_map.
    rewrite (collect_pure _ (fun ps y => match found (pr_name (fst ps)) (n_properties (s_value n)) ts with
       | Some x => y = x | None => absent (pr_default (fst ps)) (pr_option (fst ps)) y end)).
    - rewrite Forall2_map_l. cbn [fst].
      rewrite (Forall2_iff_in _ (prop_holds (n_properties (s_value n)) ts)); [reflexivity|].
      intros p y I. eapply found_holds; eauto.
    - intros x c0 c0' y I. apply in_map_iff in I. destruct I as (p & <- & I). cbn [fst].
      apply prop_finish_ok. now apply NF. }
  split.
  - intros ([slots rest] & c1 & H & K). rewrite E in H. apply prop_loop_ok in H; auto.
    destruct H as (ts & H & -> & ->). cbn [app] in K. apply d_map_ok in K.
    destruct K as (xs & K & ->). apply Fin in K; auto. destruct K as [-> K].
    exists ts, xs. auto.
  - intros (ts & xs & H & K & ->).
    exists (map (fun p => slot_after p (found (pr_name p) (n_properties (s_value n)) ts))
            (st_properties s), rests ts), c'. split.
    + rewrite E. apply prop_loop_ok; auto. exists ts. auto.
    + cbn beta iota. apply d_map_ok. exists xs. split; [|reflexivity]. apply Fin; auto.
Qed.

(** ** Children *)

Definition child_take {Sp L} (dn : child Sp L -> node_impl Sp (dval L)) (d : child Sp L)
    (sl : child_slot L) (n : snode Sp) : dec Sp (child_slot L) :=
  match sl with
  | CMulti xs => d_map (fun x => CMulti (xs ++ [x])) (dn d n)
  | CNormal (Some _) => d_err (duplicate_node d n)
  | CNormal None => d_map (fun x => CNormal (Some x)) (dn d n)
  | CBool b => fun c =>
      let c' := check_flag_node n c in
      if b then (emit_error (duplicate_node d n) c', DOk (CBool b)) else (c', DOk (CBool true))
  | CFlat _ => d_panic
  end.

Lemma child_branches_step {Sp L} (dn : child Sp L -> node_impl Sp (dval L)) g n c c' :
  forall ds t slots',
  NoDup (map ch_name ds) ->
  (forall d, In d ds -> match g d with CFlat _ => False | _ => True end) ->
  child_branches dn ds (map g ds) n c = (c', DOk (t, slots')) <->
  (t = false /\ ~ In (name_of n) (map ch_name ds) /\ slots' = map g ds /\ c' = c)
  \/ (t = true /\ exists d sl, In d ds /\ ch_name d = name_of n
        /\ child_take dn d (g d) n c = (c', DOk sl)
        /\ slots' = map (fun q => if text_eqb (name_of n) (ch_name q) then sl else g q) ds).
Proof.
  induction ds as [|d ds IH]; intros t slots' ND NF.
  - cbn [child_branches map]. rewrite d_ok_ok. split.
    + intros [-> H]. injection H as -> ->. left. cbn. tauto.
    + intros [(-> & _ & -> & ->)|(_ & d & sl & [] & _)]. auto.
  - cbn [map] in ND. apply NoDup_cons_iff in ND. destruct ND as [Nd ND].
    assert (NF' : forall d, In d ds -> match g d with CFlat _ => False | _ => True end).
    { intros q I. apply NF. now right. }
    assert (E : child_branches dn (d :: ds) (map g (d :: ds)) n c =
      if text_eqb (name_of n) (ch_name d)
      then d_map (fun sl => (true, sl :: map g ds)) (child_take dn d (g d) n) c
      else d_map (fun '(t, ss) => (t, g d :: ss)) (child_branches dn ds (map g ds) n) c).
    { cbn [child_branches map]. specialize (NF d (or_introl eq_refl)). unfold name_of.
      destruct (text_eqb (s_value (n_node_name (s_value n))) (ch_name d));
      destruct (g d) as [x|xs|[x|]|b]; try contradiction; try reflexivity.
      - unfold child_take, d_map, d_bind. destruct (dn d n c) as [c1 [a|e|]]; reflexivity.
      - unfold child_take, d_map, d_bind. destruct (dn d n c) as [c1 [a|e|]]; reflexivity.
      - unfold child_take, d_map, d_bind. destruct b; reflexivity. }
    rewrite E. clear E.
    assert (Tl : forall sl, ch_name d = name_of n ->
      map (fun q => if text_eqb (name_of n) (ch_name q) then sl else g q) (d :: ds)
      = sl :: map g ds).
    { intros sl Q. cbn [map]. rewrite Q, text_eqb_refl. f_equal. apply map_ext_in. intros q I.
      destruct (text_eqb_reflect (name_of n) (ch_name q)) as [F|F]; auto.
      exfalso. apply Nd. rewrite Q, F. now apply in_map. }
    destruct (text_eqb_reflect (name_of n) (ch_name d)) as [Q|Q].
    + rewrite d_map_ok. split.
      * intros (sl & H & J). injection J as -> ->. right. split; [reflexivity|].
        exists d, sl. split; [now left|]. split; [auto|]. split; [assumption|].
        symmetry. apply Tl. auto.
      * intros [(_ & A & _)|(-> & q & sl & I & J & H & ->)].
        -- exfalso. apply A. left. auto.
        -- assert (q = d) as ->.
           { destruct I as [->|I]; [reflexivity|]. exfalso. apply Nd. rewrite <- Q, <- J.
             now apply in_map. }
           exists sl. split; [assumption|]. rewrite Tl by auto. reflexivity.
    + rewrite d_map_ok. split.
      * intros ([t1 ss] & H & J). injection J as -> ->. apply IH in H; auto.
        destruct H as [(-> & A & -> & ->)|(-> & q & sl & I & J & H & ->)].
        -- left. split; [reflexivity|]. split; [|auto]. cbn. intros [F|F]; [congruence|tauto].
        -- right. split; [reflexivity|]. exists q, sl. split; [now right|]. split; [auto|].
           split; [assumption|]. cbn [map].
           destruct (text_eqb_reflect (name_of n) (ch_name d)); [congruence|reflexivity].
      * intros [(-> & A & -> & ->)|(-> & q & sl & I & J & H & ->)].
        -- exists (false, map g ds). split; [|reflexivity]. apply IH; auto. left.
           split; [reflexivity|]. split; [|auto]. intros F. apply A. now right.
        -- exists (true, map (fun q => if text_eqb (name_of n) (ch_name q) then sl else g q) ds).
           split.
           ++ apply IH; auto. right. split; [reflexivity|]. exists q, sl. split; [|auto].
              destruct I as [->|I]; [congruence|assumption].
           ++ cbn [map]. destruct (text_eqb_reflect (name_of n) (ch_name d)); [congruence|reflexivity].
Qed.

Definition seen_names {Sp} (ns : list (snode Sp)) (name : text) : bool :=
  existsb (fun n => text_eqb (name_of n) name) ns.

Lemma seen_names_in {Sp} (ns : list (snode Sp)) name :
  seen_names ns name = true <-> In name (map name_of ns).
Proof.
  unfold seen_names. rewrite existsb_exists, in_map_iff. split.
  - intros (n & I & H). exists n. split; [|assumption].
    destruct (text_eqb_reflect (name_of n) name); congruence.
  - intros (n & <- & I). exists n. split; [assumption|apply text_eqb_refl].
Qed.

Definition child_after {Sp L} (ns : list (snode Sp)) (bs : list (became L)) (d : child Sp L)
  : child_slot L :=
  match ch_mode d with
  | CmMulti => CMulti (values_for (ch_name d) ns bs)
  | CmNormal => CNormal (hd_error (values_for (ch_name d) ns bs))
  | CmBool => CBool (seen_names ns (ch_name d))
  | CmFlatten => CFlat (ti_default (f_impl (ch_field d)))
  end.

Lemma values_for_snoc {Sp L} name (ns : list (snode Sp)) (bs : list (became L)) n b :
  List.length bs = List.length ns ->
  values_for name (ns ++ [n]) (bs ++ [b]) =
  values_for name ns bs ++
    match b with Value_for x => if text_eqb (name_of n) name then [x] else [] | _ => [] end.
Proof.
  revert bs. induction ns as [|n' ns IH]; intros [|b' bs] E; try discriminate; cbn.
  - destruct b; reflexivity.
  - injection E as E. destruct b' as [x| |x|]; try now apply IH.
    destruct (text_eqb (name_of n') name); [cbn; f_equal|]; now apply IH.
Qed.

(** Which values the children of a name have had so far. *)
Definition consistent {Sp L} (ds : list (child Sp L)) (ns : list (snode Sp))
    (bs : list (became L)) : Prop :=
  forall d, In d ds -> ch_mode d = CmNormal ->
    (values_for (ch_name d) ns bs = [] <-> ~ In (ch_name d) (map name_of ns)).

Lemma same_child {Sp L} (ds : list (child Sp L)) : NoDup (map ch_name ds) ->
  forall d q, In d ds -> In q ds -> ch_name d = ch_name q -> d = q.
Proof.
  induction ds as [|x ds IH]; intros ND d q I J E; [contradiction|].
  cbn in ND. apply NoDup_cons_iff in ND. destruct ND as [Nx ND].
  destruct I as [->|I], J as [->|J]; auto.
  - exfalso. apply Nx. rewrite E. now apply in_map.
  - exfalso. apply Nx. rewrite <- E. now apply in_map.
Qed.

Lemma names_snoc {Sp} (ns : list (snode Sp)) n name :
  In name (map name_of (ns ++ [n])) <-> In name (map name_of ns) \/ name_of n = name.
Proof. rewrite map_app, in_app_iff. cbn. tauto. Qed.

Lemma consistent_step {Sp L} (dn : child Sp L -> node_impl Sp (dval L)) dv ds before bs0 n c b c1 :
  NoDup (map ch_name ds) -> List.length bs0 = List.length before ->
  child_taken dn dv ds before n c b c1 ->
  consistent ds before bs0 -> consistent ds (before ++ [n]) (bs0 ++ [b]).
Proof.
  intros ND Len T Con d I M. rewrite values_for_snoc by assumption. rewrite names_snoc.
  specialize (Con d I M).
  destruct (text_eqb_reflect (name_of n) (ch_name d)) as [Q|Q].
  - assert (exists x, b = Value_for x) as (x & ->).
    { inversion T as [? q ? x ? I' Q'|? q ? x ? I' Q'|? q ? I' Q' M'|? q ? I' Q' M'
        |? ? ? ? ? N|? ? N]; subst; eauto.
      - rewrite Q in Q'. rewrite (same_child ds ND q d I' I Q') in M'. congruence.
      - rewrite Q in Q'. rewrite (same_child ds ND q d I' I Q') in M'. congruence.
      - exfalso. apply N. rewrite Q. now apply in_map.
      - exfalso. apply N. rewrite Q. now apply in_map. }
    split.
    + intros E. apply app_eq_nil in E. destruct E; discriminate.
    + intros E. exfalso. apply E. auto.
  - replace (match b with Value_for _ => [] | _ => [] end) with (@nil (dval L))
        by (now destruct b). rewrite app_nil_r, Con. tauto.
Qed.

Lemma flag_node_errors {Sp} (n : snode Sp) c :
  check_flag_node n c = with_errors c (flag_errors (s_value n)).
Proof. apply flag_node. Qed.

Lemma emit_with {Sp} (c : context Sp) es e :
  emit_error e (with_errors c es) = with_errors c (es ++ [e]).
Proof. unfold emit_error, with_errors. cbn. now rewrite app_assoc. Qed.

Lemma duplicate_right {Sp L} (d : child Sp L) n : ch_name d = name_of n ->
  duplicate_node d n = duplicate_error n.
Proof.
  intros Q. unfold duplicate_node, duplicate_error, unexpected, backquoted. rewrite Q.
  f_equal. rewrite <- app_assoc, <- app_comm_cons, <- app_assoc. reflexivity.
Qed.

Lemma child_take_ok {Sp L} (dn : child Sp L -> node_impl Sp (dval L)) dv ds before bs0 n c c1 d sl :
  NoDup (map ch_name ds) -> Forall (fun d => ch_mode d <> CmFlatten) ds ->
  List.length bs0 = List.length before -> consistent ds before bs0 ->
  In d ds -> ch_name d = name_of n ->
  child_take dn d (child_after before bs0 d) n c = (c1, DOk sl) <->
  exists b, child_taken dn dv ds before n c b c1
    /\ sl = child_after (before ++ [n]) (bs0 ++ [b]) d.
Proof.
  intros ND NF Len Con I Q. rewrite Forall_forall in NF. specialize (NF d I).
  unfold child_after.
  assert (Inv : forall b, child_taken dn dv ds before n c b c1 ->
    (ch_mode d = CmNormal /\ ~ In (name_of n) (map name_of before)
      /\ exists x, b = Value_for x /\ dn d n c = (c1, DOk x))
    \/ (ch_mode d = CmMulti /\ exists x, b = Value_for x /\ dn d n c = (c1, DOk x))
    \/ (ch_mode d = CmBool /\ b = A_flag /\ ~ In (name_of n) (map name_of before)
        /\ c1 = with_errors c (flag_errors (s_value n)))
    \/ (ch_mode d = CmBool /\ b = A_flag /\ In (name_of n) (map name_of before)
        /\ c1 = with_errors c (flag_errors (s_value n) ++ [duplicate_error n]))).
  { intros b T. inversion T as [? q ? x ? I' Q'|? q ? x ? I' Q'|? q ? I' Q' M'|? q ? I' Q' M'
        |? ? ? ? ? N|? ? N]; subst.
    1-4: assert (q = d) as -> by (apply (same_child ds ND); congruence).
    - left. eauto 6.
    - right; left. eauto 6.
    - right; right; left. auto.
    - right; right; right. auto.
    - exfalso. apply N. rewrite <- Q. now apply in_map.
    - exfalso. apply N. rewrite <- Q. now apply in_map. }
  destruct (ch_mode d) eqn:M; [|congruence| |]; cbn [child_take].
  - pose proof (Con d I M) as C.
    destruct (values_for (ch_name d) before bs0) as [|y ys] eqn:V; cbn [hd_error].
    + rewrite d_map_ok. split.
      * intros (x & H & ->). exists (Value_for x). split.
        -- eapply CT_single; eauto. rewrite <- Q. now apply C.
        -- rewrite values_for_snoc, V by assumption. rewrite Q, text_eqb_refl. reflexivity.
      * intros (b & T & ->). apply Inv in T.
        destruct T as [(_ & _ & x & -> & H)|[(F & _)|[(F & _)|(F & _)]]]; try discriminate.
        exists x. split; [assumption|].
        rewrite values_for_snoc, V by assumption. rewrite Q, text_eqb_refl. reflexivity.
    + rewrite d_err_ok. split; [contradiction|]. intros (b & T & _). apply Inv in T.
      destruct T as [(_ & N & x & -> & H)|[(F & _)|[(F & _)|(F & _)]]]; try discriminate.
      rewrite <- Q in N. apply C in N. discriminate.
  - rewrite d_map_ok. split.
    + intros (x & H & ->). exists (Value_for x). split.
      * eapply CT_multi; eauto.
      * rewrite values_for_snoc by assumption. rewrite Q, text_eqb_refl. reflexivity.
    + intros (b & T & ->). apply Inv in T.
      destruct T as [(F & _)|[(_ & x & -> & H)|[(F & _)|(F & _)]]]; try discriminate.
      exists x. split; [assumption|].
      rewrite values_for_snoc by assumption. rewrite Q, text_eqb_refl. reflexivity.
  - assert (S1 : seen_names (before ++ [n]) (ch_name d) = true).
    { apply seen_names_in, names_snoc. auto. }
    rewrite S1, flag_node_errors. pose proof (seen_names_in before (ch_name d)) as B.
    rewrite Q in B. rewrite Q.
    destruct (seen_names before (name_of n)).
    + rewrite emit_with, duplicate_right by assumption. split.
      * intros H. injection H as <- <-. exists A_flag. split; [|reflexivity].
        eapply CT_flag_again; eauto. now apply B.
      * intros (b & T & ->). apply Inv in T.
        destruct T as [(F & _)|[(F & _)|[(_ & -> & N & _)|(_ & -> & _ & ->)]]]; try discriminate.
        -- exfalso. apply N. now apply B.
        -- reflexivity.
    + split.
      * intros H. injection H as <- <-. exists A_flag. split; [|reflexivity].
        eapply CT_flag; eauto. intros F. apply B in F. discriminate.
      * intros (b & T & ->). apply Inv in T.
        destruct T as [(F & _)|[(F & _)|[(_ & -> & _ & ->)|(_ & -> & N & _)]]]; try discriminate.
        -- reflexivity.
        -- apply B in N. discriminate.
Qed.

Lemma child_after_other {Sp L} (before : list (snode Sp)) bs0 n b (d : child Sp L) :
  List.length bs0 = List.length before -> name_of n <> ch_name d ->
  child_after (before ++ [n]) (bs0 ++ [b]) d = child_after before bs0 d.
Proof.
  intros Len Q. unfold child_after. rewrite values_for_snoc by assumption.
  unfold seen_names. rewrite existsb_app. cbn [existsb]. rewrite orb_false_r.
  destruct (text_eqb_reflect (name_of n) (ch_name d)); [congruence|].
  rewrite orb_false_r.
  replace (match b with Value_for _ => [] | _ => [] end) with (@nil (dval L))
    by (now destruct b). now rewrite app_nil_r.
Qed.

Lemma child_loop_ok {Sp L} (dn : child Sp L -> node_impl Sp (dval L)) dv ds :
  NoDup (map ch_name ds) -> Forall (fun d => ch_mode d <> CmFlatten) ds ->
  forall ns before bs0 rest c c' slots' rest',
  List.length bs0 = List.length before ->
  consistent ds before bs0 ->
  child_loop dn dv ds (map (child_after before bs0) ds) rest ns c = (c', DOk (slots', rest')) <->
  exists bs, in_turn (child_taken dn dv ds) before ns c bs c'
    /\ slots' = map (child_after (before ++ ns) (bs0 ++ bs)) ds
    /\ rest' = rest ++ rest_values bs.
Proof.
  intros ND NF. pose proof NF as NF0. rewrite Forall_forall in NF0.
  assert (NF' : forall b (bs : list (became L)) d, In d ds ->
     match child_after b bs d with CFlat _ => False | _ => True end).
  { intros b bs d I. unfold child_after. specialize (NF0 d I). destruct (ch_mode d); auto. }
  induction ns as [|n ns IH]; intros before bs0 rest c c' slots' rest' Len Con.
  - cbn [child_loop]. rewrite d_ok_ok. split.
    + intros [-> H]. injection H as -> ->. exists []. rewrite !app_nil_r.
      split; [constructor|auto].
    + intros (bs & H & -> & ->). inversion H; subst. rewrite !app_nil_r. auto.
  - cbn [child_loop]. rewrite d_bind_ok.
    assert (Len' : forall b : became L,
       List.length (bs0 ++ [b]) = List.length (before ++ [n])).
    { intros b. rewrite !app_length. cbn. lia. }
    assert (Upd : forall d b, In d ds -> ch_name d = name_of n ->
      map (fun q => if text_eqb (name_of n) (ch_name q)
                    then child_after (before ++ [n]) (bs0 ++ [b]) d
                    else child_after before bs0 q) ds
      = map (child_after (before ++ [n]) (bs0 ++ [b])) ds).
    { intros d b I Q. apply map_ext_in. intros q J.
      destruct (text_eqb_reflect (name_of n) (ch_name q)) as [E|E].
      - f_equal. apply (same_child ds ND); congruence.
      - now rewrite child_after_other. }
    assert (Keep : forall b, ~ In (name_of n) (map ch_name ds) ->
      map (child_after before bs0) ds = map (child_after (before ++ [n]) (bs0 ++ [b])) ds).
    { intros b N. apply map_ext_in. intros q J. symmetry. apply child_after_other; auto.
      intros E. apply N. rewrite E. now apply in_map. }
    split.
    + intros ([t slots1] & c1 & H & K).
      apply (child_branches_step dn _ n c c1 ds t slots1 ND (NF' before bs0)) in H.
      destruct H as [(-> & A & -> & ->)|(-> & d & sl & I & Q & D & ->)].
      * assert (exists b x c2, child_taken dn dv ds before n c b c2
           /\ child_loop dn dv ds (map (child_after before bs0) ds) (rest ++ x) ns c2
              = (c', DOk (slots', rest')) /\ x = rest_values [b])
          as (b & x & c2 & T & K' & ->).
        { destruct dv as [d|].
          - apply d_bind_ok in K. destruct K as (x & c2 & D & K).
            exists (In_rest x), [x], c2. split; [|auto]. eapply CT_rest; eauto.
          - apply d_bind_ok in K. destruct K as (u & c2 & D & K). apply d_emit_ok in D. subst c2.
            exists Unknown, [], (emit_error (unexpected_node n) c).
            rewrite app_nil_r. split; [|auto]. apply CT_unknown; auto. }
        rewrite (Keep b A) in K'. apply IH in K'; [|apply Len'|eapply consistent_step; eauto].
        destruct K' as (bs & K1 & -> & ->). exists (b :: bs).
        split; [econstructor; eauto|]. rewrite <- !app_assoc. split; [reflexivity|].
        f_equal. cbn. now rewrite app_nil_r.
      * apply (child_take_ok dn dv ds before bs0 n c c1 d sl ND NF Len Con I Q) in D.
        destruct D as (b & T & ->). rewrite Upd in K by assumption.
        apply IH in K; [|apply Len'|eapply consistent_step; eauto].
        destruct K as (bs & K1 & -> & ->). exists (b :: bs).
        split; [econstructor; eauto|]. rewrite <- !app_assoc. split; [reflexivity|].
        f_equal.
        assert (E : rest_values [b] = []).
        { inversion T as [| | | |? ? ? ? ? N|? ? N]; subst; try reflexivity.
          exfalso. apply N. rewrite <- Q. now apply in_map. }
        cbn in E. rewrite app_nil_r in E. cbn. now rewrite E.
    + intros (bs & H & -> & ->). inversion H as [|? ? ? ? c1 ? b bs1 T H2]; subst.
      destruct (in_dec (list_eq_dec N.eq_dec) (name_of n) (map ch_name ds)) as [A|A].
      * apply in_map_iff in A. destruct A as (d & Q & I).
        exists (true, map (child_after (before ++ [n]) (bs0 ++ [b])) ds), c1. split.
        -- apply (child_branches_step dn _ n c c1 ds _ _ ND (NF' before bs0)). right.
           split; [reflexivity|]. exists d, (child_after (before ++ [n]) (bs0 ++ [b]) d).
           split; [assumption|]. split; [assumption|]. split.
           ++ apply (child_take_ok dn dv ds before bs0 n c c1 d _ ND NF Len Con I Q). eauto.
           ++ symmetry. now apply Upd.
        -- cbn beta iota. apply IH; [apply Len'|eapply consistent_step; eauto|].
           exists bs1. split; [assumption|]. rewrite <- !app_assoc. split; [reflexivity|].
           assert (E : rest_values [b] = []).
           { inversion T as [| | | |? ? ? ? ? N|? ? N]; subst; try reflexivity.
             exfalso. apply N. rewrite <- Q. now apply in_map. }
           cbn in E. rewrite app_nil_r in E. cbn. now rewrite E.
      * exists (false, map (child_after before bs0) ds), c. split.
        -- apply (child_branches_step dn _ n c c ds _ _ ND (NF' before bs0)). left. auto.
        -- cbn beta iota. rewrite (Keep b A).
           inversion T as [? q ? x ? I' Q'|? q ? x ? I' Q'|? q ? I' Q' M'|? q ? I' Q' M'
             |? d ? x ? N DV D|? ? N DV]; subst.
           1-4: exfalso; apply A; rewrite <- Q'; now apply in_map.
           ++ apply d_bind_ok. exists x, c1. split; [assumption|].
              apply IH; [apply Len'|eapply consistent_step; eauto|].
              exists bs1. split; [assumption|]. rewrite <- !app_assoc. split; reflexivity.
           ++ apply d_bind_ok. exists tt, (emit_error (unexpected_node n) c).
              split; [now apply d_emit_ok|].
              apply IH; [apply Len'|eapply consistent_step; eauto|].
              exists bs1. split; [assumption|]. rewrite <- !app_assoc. split; reflexivity.
Qed.

Lemma consistent_all {Sp L} (dn : child Sp L -> node_impl Sp (dval L)) dv ds :
  NoDup (map ch_name ds) -> forall ns before bs0 c bs c',
  List.length bs0 = List.length before -> consistent ds before bs0 ->
  in_turn (child_taken dn dv ds) before ns c bs c' ->
  consistent ds (before ++ ns) (bs0 ++ bs).
Proof.
  intros ND. induction ns as [|n ns IH]; intros before bs0 c bs c' Len Con H.
  - inversion H; subst. now rewrite !app_nil_r.
  - inversion H as [|? ? ? ? c1 ? b bs1 T H2]; subst.
    replace (before ++ n :: ns) with ((before ++ [n]) ++ ns) by now rewrite <- app_assoc.
    replace (bs0 ++ b :: bs1) with ((bs0 ++ [b]) ++ bs1) by now rewrite <- app_assoc.
    eapply IH; eauto.
    + rewrite !app_length. cbn. lia.
    + eapply consistent_step; eauto.
Qed.

(** A single field has at most one value. *)
Lemma single_value {Sp L} (dn : child Sp L -> node_impl Sp (dval L)) dv ds d :
  NoDup (map ch_name ds) -> In d ds -> ch_mode d = CmNormal -> forall ns before bs0 c bs c',
  List.length bs0 = List.length before -> consistent ds before bs0 ->
  List.length (values_for (ch_name d) before bs0) <= 1 ->
  in_turn (child_taken dn dv ds) before ns c bs c' ->
  List.length (values_for (ch_name d) (before ++ ns) (bs0 ++ bs)) <= 1.
Proof.
  intros ND I M. induction ns as [|n ns IH]; intros before bs0 c bs c' Len Con One H.
  - inversion H; subst. now rewrite !app_nil_r.
  - inversion H as [|? ? ? ? c1 ? b bs1 T H2]; subst.
    replace (before ++ n :: ns) with ((before ++ [n]) ++ ns) by now rewrite <- app_assoc.
    replace (bs0 ++ b :: bs1) with ((bs0 ++ [b]) ++ bs1) by now rewrite <- app_assoc.
    eapply IH; eauto.
    + rewrite !app_length. cbn. lia.
    + eapply consistent_step; eauto.
    + rewrite values_for_snoc by assumption. rewrite app_length.
      destruct (text_eqb_reflect (name_of n) (ch_name d)) as [Q|Q].
      * inversion T as [? q ? x ? I' Q' M' N'|? q ? x ? I' Q' M'| | | |]; subst; cbn; try lia.
        -- rewrite Q in N'. apply (Con d I M) in N'. rewrite N'. cbn. lia.
        -- exfalso. rewrite Q in Q'. rewrite (same_child ds ND q d I' I Q') in M'. congruence.
      * destruct b; cbn; lia.
Qed.

Lemma child_finish_ok {Sp L} (es : option Sp) ns bs (d : child Sp L) c c' y :
  ch_mode d <> CmFlatten ->
  (ch_mode d = CmNormal -> List.length (values_for (ch_name d) ns bs) <= 1) ->
  child_finish es (d, child_after ns bs d) c = (c', DOk y) <->
  c' = c /\ child_holds ns d (values_for (ch_name d) ns bs) y.
Proof.
  intros NF One. unfold child_finish, child_after.
  assert (E : forall d : dval L, d_ok d c = (c', DOk y) <-> c' = c /\ y = d).
  { intros d0. rewrite d_ok_ok. intuition congruence. }
  destruct (ch_mode d) eqn:M; [|congruence| |].
  - specialize (One eq_refl).
    destruct (values_for (ch_name d) ns bs) as [|x [|]]; cbn [hd_error]; [| |cbn in One; lia].
    + destruct (ch_default d) as [v|] eqn:D; [|destruct (ch_option d) eqn:O]; rewrite ?E.
      * split; intros [-> H]; split; auto.
        -- subst. apply CH_single_absent; auto. rewrite D. now constructor.
        -- inversion H as [| |? ? ? A| | |]; try congruence. inversion A; congruence.
      * split; intros [-> H]; split; auto.
        -- subst. apply CH_single_absent; auto. rewrite D, O. now constructor.
        -- inversion H as [| |? ? ? A| | |]; try congruence. inversion A; congruence.
      * rewrite d_err_ok. split; [contradiction|]. intros [_ H].
        inversion H as [| |? ? ? A| | |]; try congruence. inversion A; congruence.
    + assert (A : child_holds ns d [x] y <-> y = if ch_option d && match ch_default d with None => true | _ => false end
       then VSome x else x).
      { split.
        - intros H. inversion H as [|? ? X| | | |]; try congruence. now injection X as <-.
        - intros ->. now apply CH_single. }
      rewrite A. destruct (ch_default d) as [v|] eqn:D; [|destruct (ch_option d) eqn:O]; rewrite ?E.
      * now rewrite andb_false_r.
      * reflexivity.
      * reflexivity.
  - destruct (values_for (ch_name d) ns bs) as [|x xs] eqn:V.
    + destruct (ch_default d) as [v|] eqn:D; [|destruct (ch_option d) eqn:O]; rewrite ?E.
      * split; intros [-> H]; split; auto.
        -- subst. apply CH_multi_absent; auto. rewrite D. now constructor.
        -- inversion H as [| | | |? ? ? A|]; try congruence. inversion A; congruence.
      * split; intros [-> H]; split; auto.
        -- subst. apply CH_multi_absent; auto. rewrite D, O. now constructor.
        -- inversion H as [| | | |? ? ? A|]; try congruence. inversion A; congruence.
      * split; intros [-> H]; split; auto.
        -- subst. now apply CH_multi_empty.
        -- inversion H as [| | | |? ? ? A|]; try congruence. inversion A; congruence.
    + assert (A : child_holds ns d (x :: xs) y <->
         y = if ch_option d then VSome (VList (x :: xs)) else VList (x :: xs)).
      { split.
        - intros H. inversion H; try congruence.
        - intros ->. apply CH_multi; auto. discriminate. }
      rewrite A. destruct (ch_default d) as [v|]; apply E.
  - rewrite E. pose proof (seen_names_in ns (ch_name d)) as B. split; intros [-> H]; split; auto.
    + subst. now apply CH_flag.
    + inversion H as [b ? Hb| | | | |]; try congruence. f_equal.
      destruct b, (seen_names ns (ch_name d)); try reflexivity.
      * symmetry. apply B, Hb. reflexivity.
      * apply Hb, B. reflexivity.
Qed.

Lemma decode_children_ok {Sp L} (dn : child Sp L -> node_impl Sp (dval L)) dv s es ns c c' out :
  plain_children (st_children s) ->
  decode_children dn dv s es ns c = (c', DOk out) <->
  children_right dn dv (st_children s) ns c out c'.
Proof.
  intros [ND NF]. unfold decode_children, children_right.
  assert (Con0 : consistent (L := L) (st_children s) (@nil (snode Sp)) []).
  { intros d I M. cbn. tauto. }
  assert (E : map child_start (st_children s) = map (child_after [] []) (st_children s)).
  { apply map_ext. intros d. unfold child_start, child_after. destruct (ch_mode d); reflexivity. }
  rewrite d_bind_ok.
  assert (Fin : forall bs c1 xs,
    in_turn (child_taken dn dv (st_children s)) [] ns c bs c1 ->
    d_collect (child_finish es)
      (combine (st_children s) (map (child_after ns bs) (st_children s))) c1 = (c', DOk xs) <->
    c' = c1 /\ Forall2 (fun d x => child_holds ns d (values_for (ch_name d) ns bs) x)
       (st_children s) xs).
  { intros bs c1 xs H. rewrite combine_map.
    rewrite (collect_pure _ (fun ps y =>
      child_holds ns (fst ps) (values_for (ch_name (fst ps)) ns bs) y)).
    - rewrite Forall2_map_l. reflexivity.
    - intros x c0 c0' y I. apply in_map_iff in I. destruct I as (d & <- & I). cbn [fst].
      rewrite Forall_forall in NF. apply child_finish_ok; [now apply NF|].
      intros M. apply (single_value dn dv (st_children s) d ND I M ns [] [] c bs c1); auto. }
  split.
  - intros ([slots rest] & c1 & H & K). rewrite E in H. apply child_loop_ok in H; auto.
    destruct H as (bs & H & -> & ->). cbn [app] in K. apply d_map_ok in K.
    destruct K as (xs & K & ->). apply Fin in K; auto. destruct K as [-> K].
    exists bs, xs. auto.
  - intros (bs & xs & H & K & ->).
    exists (map (child_after ns bs) (st_children s), rest_values bs), c'. split.
    + rewrite E. apply child_loop_ok; auto. exists bs. auto.
    + cbn beta iota. apply d_map_ok. exists xs. split; [|reflexivity]. apply Fin; auto.
Qed.

(** ** Special fields *)

Lemma d_convert_ok {Sp X A} (x : spanned X Sp) (r : A + source) c c' y :
  d_convert x r c = (c', DOk y) <-> c' = c /\ r = inl y.
Proof.
  unfold d_convert. destruct r as [a|e].
  - rewrite d_ok_ok. intuition congruence.
  - rewrite d_err_ok. split; [contradiction|]. intros [_ H]. discriminate.
Qed.

Lemma in_turn_ext {Sp X Y} (R S : list X -> X -> context Sp -> Y -> context Sp -> Prop) :
  (forall b x c y c', R b x c y c' <-> S b x c y c') ->
  forall before xs c ys c', in_turn R before xs c ys c' <-> in_turn S before xs c ys c'.
Proof.
  intros H before xs c ys c'. split; induction 1; econstructor; eauto; now apply H.
Qed.

Lemma special_type_name_ok {Sp L} (n : snode Sp) (fo : field Sp L * bool) c c' y :
  special_type_name n fo c = (c', DOk y) <-> c' = c /\ type_holds n fo y.
Proof.
  destruct fo as [f o]. unfold special_type_name.
  destruct (n_type_name (s_value n)) as [ty|] eqn:T.
  - assert (A : type_holds n (f, o) y <-> exists x,
       ti_from_str (f_impl f) (typename_as_str (s_value ty)) = inl x
       /\ y = if o then VSome x else x).
    { split.
      - intros H. inversion H; subst; [|congruence].
        match goal with H : n_type_name _ = Some ?t |- _ => rewrite T in H; injection H as <- end.
        eauto.
      - intros (x & H & ->). now apply (TH_given n f o ty x). }
    rewrite A. destruct o.
    + rewrite d_map_ok. split.
      * intros (x & H & ->). apply d_convert_ok in H. destruct H as [-> H]. eauto.
      * intros [-> (x & H & ->)]. exists x. split; [now apply d_convert_ok|reflexivity].
    + rewrite d_convert_ok. split.
      * intros [-> H]. eauto.
      * intros [-> (x & H & ->)]. auto.
  - destruct o.
    + rewrite d_ok_ok. split.
      * intros [-> ->]. split; [reflexivity|now apply TH_absent].
      * intros [-> H]. inversion H; subst; [congruence|auto].
    + rewrite d_err_ok. split; [contradiction|]. intros [_ H]. inversion H; congruence.
Qed.

Lemma decode_specials_ok {Sp L} (s : struct Sp L) n c c' out :
  decode_specials s n c = (c', DOk out) <->
  exists c1, special_right (st_spans s) (st_node_names s) (st_type_names s) n c out c1
    /\ c' = with_errors c1 (type_name_errors (st_type_names s) (s_value n)).
Proof.
  unfold decode_specials, special_right.
  assert (E : forall f c x c', gives (special_span n) [] f c x c' <->
     ti_span (f_impl (L := L) f) (s_span n) c = (c', x)).
  { intros f c0 x c1. unfold gives, special_span. destruct (ti_span (f_impl f) (s_span n) c0).
    split; intros H; injection H as -> ->; reflexivity. }
  assert (Em : forall c0 c1 u,
    (match st_type_names s, n_type_name (s_value n) with
     | [], Some tn =>
         d_emit (unexpected tn (str "type name") (str "no type name expected for this node"))
     | _, _ => d_ok tt
     end) c0 = (c1, DOk u) <-> c1 = with_errors c0 (type_name_errors (st_type_names s) (s_value n))).
  { intros c0 c1 u. unfold type_name_errors.
    destruct (st_type_names s); [destruct (n_type_name (s_value n))|].
    - now rewrite d_emit_ok.
    - rewrite d_ok_ok. unfold with_errors. rewrite app_nil_r. destruct u, c0; intuition congruence.
    - rewrite d_ok_ok. unfold with_errors. rewrite app_nil_r. destruct u, c0; intuition congruence. }
  assert (Nm : forall c0 c1 ys,
    d_collect (special_node_name n) (st_node_names s) c0 = (c1, DOk ys) <->
    c1 = c0 /\ Forall2 (fun (f : field Sp L) y => ti_from_str (f_impl f) (name_of n) = inl y)
         (st_node_names s) ys).
  { intros c0 c1 ys. apply collect_pure. intros. apply d_convert_ok. }
  assert (Ty : forall c0 c1 ys,
    d_collect (special_type_name n) (st_type_names s) c0 = (c1, DOk ys) <->
    c1 = c0 /\ Forall2 (type_holds n) (st_type_names s) ys).
  { intros c0 c1 ys. apply collect_pure. intros. apply special_type_name_ok. }
  rewrite d_bind_ok. split.
  - intros (xs & c1 & H1 & K). apply d_bind_ok in K. destruct K as (ys & c2 & H2 & K).
    apply d_bind_ok in K. destruct K as (zs & c3 & H3 & K).
    apply d_bind_ok in K. destruct K as (u & c4 & H4 & K). apply d_ok_ok in K.
    destruct K as [-> ->]. apply Nm in H2. destruct H2 as [-> H2]. apply Ty in H3.
    destruct H3 as [-> H3]. apply Em in H4. subst c4. exists c1. split; [|reflexivity].
    exists xs, ys, zs. split; [|auto]. apply (d_collect_ok _ _ []) in H1.
    refine (proj1 (in_turn_ext _ _ _ _ _ _ _ _) H1). intros. apply E.
  - intros (c1 & (xs & ys & zs & H1 & H2 & H3 & ->) & ->). exists xs, c1. split.
    { apply (d_collect_ok _ _ []). refine (proj2 (in_turn_ext _ _ _ _ _ _ _ _) H1). intros. apply E. }
    apply d_bind_ok. exists ys, c1. split; [now apply Nm|].
    apply d_bind_ok. exists zs, c1. split; [now apply Ty|].
    apply d_bind_ok. exists tt, (with_errors c1 (type_name_errors (st_type_names s) (s_value n))).
    split; [now apply Em|]. now apply d_ok_ok.
Qed.
