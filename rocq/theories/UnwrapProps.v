From Coq Require Import NArith List Bool String Lia.
From Verif Require Import Chars Ast Errors LexIdent Kdl ScalarProps Decode DecodeSpec DeriveDef Derive DeriveSpec
  DeriveProps FieldSpec StructSpec HonestProps HandSpec HandProps MissProps UnwrapSpec.
Import ListNotations.

Lemma with_errors_nil {Sp} (c : context Sp) : with_errors c [] = c.
Proof. destruct c. unfold with_errors. cbn. now rewrite app_nil_r. Qed.

Lemma with_errors_app {Sp} (c : context Sp) es es' :
  with_errors (with_errors c es) es' = with_errors c (es ++ es').
Proof. destruct c. unfold with_errors. cbn. now rewrite app_assoc. Qed.

Section Parts.
Context {Sp L : Type}.

Lemma no_args given (c : context Sp) (out : list (dval L)) c' :
  args_right [] None given c out c' <-> given = [] /\ out = [] /\ c' = c.
Proof.
  unfold args_right. split.
  - intros (xs & ys & c1 & H & K & J & -> & ->). cbn in J, H.
    assert (given = []) as -> by (destruct given; cbn in *; [reflexivity|lia]).
    cbn in K. inversion H; subst. inversion K; subst. auto.
  - intros (-> & -> & ->). exists [], [], c. cbn. repeat split; constructor.
Qed.

Lemma no_props kvs (c : context Sp) (out : list (dval L)) c' :
  props_right [] None kvs c out c' <-> kvs = [] /\ out = [] /\ c' = c.
Proof.
  unfold props_right. split.
  - intros (ts & xs & H & K & ->). inversion K; subst. destruct kvs as [|kv kvs].
    + inversion H; subst. auto.
    + exfalso. inversion H as [|? ? ? ? ? ? ? ? T _]; subst. inversion T; subst; try contradiction.
      discriminate.
  - intros (-> & -> & ->). exists [], []. repeat split; constructor.
Qed.

Lemma unknown_children (dn : child Sp L -> node_impl Sp (dval L)) : forall ns before c bs c',
  in_turn (child_taken dn None []) before ns c bs c' <->
  bs = map (fun _ => Unknown) ns /\ c' = with_errors c (map unknown_error ns).
Proof.
  induction ns as [|n ns IH]; intros before c bs c'; cbn [map].
  - rewrite with_errors_nil. split.
    + intros H. inversion H; subst. auto.
    + intros [-> ->]. constructor.
  - split.
    + intros H. inversion H as [|? ? ? ? c1 ? b bs1 T H2]; subst.
      inversion T; subst; try contradiction; try discriminate.
      apply IH in H2. destruct H2 as [-> ->]. rewrite with_errors_app. auto.
    + intros [-> ->]. econstructor.
      * apply CT_unknown; [auto|reflexivity].
      * apply IH. rewrite with_errors_app. auto.
Qed.

Lemma no_children (dn : child Sp L -> node_impl Sp (dval L)) ns (c : context Sp) (out : list (dval L)) c' :
  children_right dn None [] ns c out c' <->
  out = [] /\ c' = with_errors c (map unknown_error ns).
Proof.
  unfold children_right. split.
  - intros (bs & xs & H & K & ->). apply unknown_children in H. destruct H as [-> ->].
    inversion K; subst. auto.
  - intros (-> & ->). exists (map (fun _ => Unknown) ns), []. split; [apply unknown_children; auto|].
    split; [constructor|reflexivity].
Qed.

Lemma one_arg (a : arg Sp L) given (c : context Sp) (out : list (dval L)) c' :
  args_right [a] None given c out c' <->
  exists x, out = [x]
    /\ ((exists v, given = [v] /\ decodes_arg (a, v) c = (c', DOk x))
        \/ (given = [] /\ absent (ar_default a) (ar_kind_option a) x /\ c' = c)).
Proof.
  unfold args_right. split.
  - intros (xs & ys & c1 & H & K & J & -> & ->). destruct given as [|v [|v' given]].
    + cbn in H, K. inversion H; subst. inversion K as [|? y ? ys' A B]; subst. inversion B; subst.
      exists y. split; [reflexivity|]. right. auto.
    + cbn in H, K. inversion K; subst.
      inversion H as [|? ? ? ? c2 ? y ys G H2]; subst. inversion H2; subst.
      exists y. split; [reflexivity|]. left. exists v. auto.
    + cbn in J. lia.
  - intros (x & -> & [(v & -> & D)|(-> & A & ->)]).
    + exists [x], [], c'. cbn. split; [|split; [constructor|auto]].
      econstructor; [exact D|constructor].
    + exists [], [x], c. cbn. split; [constructor|]. split; [constructor; [assumption|constructor]|auto].
Qed.

Lemma all_args (f : field Sp L) m given (c : context Sp) (out : list (dval L)) c' :
  args_right [] (Some (f, m)) given c out c' <->
  exists xs, in_turn (gives (decode_value m false (f_impl f))) [] given c xs c' /\ out = [VList xs].
Proof.
  unfold args_right. split.
  - intros (xs & ys & c1 & H & K & zs & Z & ->). cbn in H, K.
    assert (K' : ys = []) by (destruct given; inversion K; reflexivity). subst ys.
    inversion H; subst. cbn in Z. exists zs. auto.
  - intros (xs & H & ->). exists [], [], c. cbn. split; [constructor|].
    split; [destruct given; constructor|]. exists xs. auto.
Qed.

Lemma one_prop (p : prop Sp L) kvs (c : context Sp) (out : list (dval L)) c' :
  NoDup (names_of kvs) ->
  props_right [p] None kvs c out c' <->
  exists x, out = [x]
    /\ ((exists k v, kvs = [(k, v)] /\ s_value k = pr_name p
           /\ decode_value (pr_decode p) (pr_option p) (f_impl (pr_field p)) v c = (c', DOk x))
        \/ (kvs = [] /\ absent (pr_default p) (pr_option p) x /\ c' = c)).
Proof.
  intros ND. unfold props_right. split.
  - intros (ts & xs & H & K & ->). rewrite app_nil_r.
    inversion K as [|? x ? xs' A B]; subst. inversion B; subst. exists x. split; [reflexivity|].
    destruct kvs as [|[k v] kvs].
    + inversion H; subst. right. inversion A as [i kv ? J|? J]; subst.
      * destruct i; discriminate.
      * auto.
    + inversion H as [|? ? ? ? c1 ? t ts' T H2]; subst.
      inversion T as [? ? p' ? y ? I Q D|? ? ? ? ? ? ? ? NI V]; subst; [|discriminate].
      destruct I as [<-|[]].
      destruct kvs as [|[k' v'] kvs].
      * inversion H2; subst. left. exists k, v. split; [reflexivity|]. split; [auto|].
        inversion A as [i kv ? J Q' M|? J]; subst.
        -- destruct i as [|[|i]]; cbn in J, M; try discriminate. injection M as <-. exact D.
        -- exfalso. apply J. cbn. auto.
      * exfalso. inversion H2 as [|? ? ? ? c2 ? t' ts'' T' H3]; subst.
        inversion T' as [? ? p' ? y' ? I Q' D'|? ? ? ? ? ? ? ? NI V]; subst; [|discriminate].
        destruct I as [<-|[]]. cbn in ND. inversion ND as [|? ? N1 N2]; subst. apply N1. left. cbn. congruence.
  - intros (x & -> & [(k & v & -> & Q & D)|(-> & A & ->)]).
    + exists [To_field x], [x]. split; [|split; [|reflexivity]].
      * econstructor; [|constructor]. apply (PT_field _ _ _ _ _ p); [left; reflexivity|auto|exact D].
      * constructor; [|constructor]. apply (PH_value _ _ _ 0 (k, v)); auto.
    + exists [], [x]. split; [constructor|]. split; [|reflexivity].
      constructor; [|constructor]. apply PH_absent; auto.
Qed.

Lemma all_props_turn (f : field Sp L) m : forall kvs before (c : context Sp) ts c',
  in_turn (prop_taken [] (Some (f, m))) before kvs c ts c' ->
  exists kxs, ts = map (fun kx => To_rest (fst kx) (snd kx)) kxs
    /\ in_turn (fun _ kv c kx c' =>
         ti_key_from_str (f_impl f) (s_value (fst kv)) = inl (fst kx)
         /\ decode_value m false (f_impl f) (snd kv) c = (c', DOk (snd kx))) before kvs c kxs c'.
Proof.
  induction kvs as [|[k v] kvs IH]; intros before c ts c' H.
  - inversion H; subst. exists []. split; [reflexivity|constructor].
  - inversion H as [|? ? ? ? c1 ? t ts' T H2]; subst.
    inversion T as [? ? p' ? y ? I Q D|? ? f' m' ? kk y ? NI V K D]; subst; [destruct I|].
    injection V as <- <-. destruct (IH _ _ _ _ H2) as (kxs & -> & H3).
    exists ((kk, y) :: kxs). split; [reflexivity|]. econstructor; [|exact H3]. cbn. auto.
Qed.

Lemma all_props_turn_back (f : field Sp L) m : forall kvs before (c : context Sp) kxs c',
  in_turn (fun _ kv c kx c' =>
         ti_key_from_str (f_impl f) (s_value (fst kv)) = inl (fst kx)
         /\ decode_value m false (f_impl f) (snd kv) c = (c', DOk (snd kx))) before kvs c kxs c' ->
  in_turn (prop_taken [] (Some (f, m))) before kvs c (map (fun kx => To_rest (fst kx) (snd kx)) kxs) c'.
Proof.
  induction kvs as [|[k v] kvs IH]; intros before c ts c' H.
  - inversion H; subst. constructor.
  - inversion H as [|? ? ? ? c1 ? kx ts' [K D] H2]; subst. cbn [map]. econstructor; [|apply IH, H2].
    apply (PT_rest _ _ _ _ _ f m); auto.
Qed.

Lemma rests_pairs (kxs : list (dval L * dval L)) :
  rests (map (fun kx => To_rest (fst kx) (snd kx)) kxs) = kxs.
Proof. induction kxs as [|[k x] l IH]; [reflexivity|]. unfold rests in *. cbn. now rewrite IH. Qed.

Lemma all_props (f : field Sp L) m kvs (c : context Sp) (out : list (dval L)) c' :
  props_right [] (Some (f, m)) kvs c out c' <->
  exists kxs, in_turn (fun _ kv c kx c' =>
         ti_key_from_str (f_impl f) (s_value (fst kv)) = inl (fst kx)
         /\ decode_value m false (f_impl f) (snd kv) c = (c', DOk (snd kx))) [] kvs c kxs c'
    /\ out = [VPairs kxs].
Proof.
  unfold props_right. split.
  - intros (ts & xs & H & K & ->). inversion K; subst.
    destruct (all_props_turn _ _ _ _ _ _ _ H) as (kxs & -> & H2). exists kxs.
    rewrite rests_pairs. auto.
  - intros (kxs & H & ->). exists (map (fun kx => To_rest (fst kx) (snd kx)) kxs), [].
    split; [apply all_props_turn_back, H|]. split; [constructor|]. now rewrite rests_pairs.
Qed.

Lemma all_children_turn (dn : child Sp L -> node_impl Sp (dval L)) d : forall ns before (c : context Sp) bs c',
  in_turn (child_taken dn (Some d) []) before ns c bs c' ->
  exists xs, bs = map In_rest xs /\ in_turn (gives d) before ns c xs c'.
Proof.
  induction ns as [|n ns IH]; intros before c bs c' H.
  - inversion H; subst. exists []. split; [reflexivity|constructor].
  - inversion H as [|? ? ? ? c1 ? b bs' T H2]; subst.
    destruct (IH _ _ _ _ H2) as (xs & -> & H3).
    inversion T as [? ? ? ? ? I|? ? ? ? ? I|? ? ? I|? ? ? I|? d' ? y ? NI V D|? ? NI V]; subst;
      try destruct I; try discriminate.
    injection V as <-. exists (y :: xs). split; [reflexivity|]. econstructor; [exact D|exact H3].
Qed.

Lemma all_children_back (dn : child Sp L -> node_impl Sp (dval L)) d : forall ns before (c : context Sp) xs c',
  in_turn (gives d) before ns c xs c' ->
  in_turn (child_taken dn (Some d) []) before ns c (map In_rest xs) c'.
Proof.
  induction ns as [|n ns IH]; intros before c bs c' H.
  - inversion H; subst. constructor.
  - inversion H as [|? ? ? ? c1 ? y xs T H2]; subst. cbn [map]. econstructor; [|apply IH, H2].
    apply (CT_rest _ _ _ _ _ d); auto.
Qed.

Lemma rest_values_all (xs : list (dval L)) : rest_values (map In_rest xs) = xs.
Proof. induction xs as [|x l IH]; [reflexivity|]. unfold rest_values in *. cbn. now rewrite IH. Qed.

Lemma all_children (dn : child Sp L -> node_impl Sp (dval L)) d ns (c : context Sp) (out : list (dval L)) c' :
  children_right dn (Some d) [] ns c out c' <->
  exists xs, in_turn (gives d) [] ns c xs c' /\ out = [VList xs].
Proof.
  unfold children_right. split.
  - intros (bs & xs & H & K & ->). inversion K; subst.
    destruct (all_children_turn _ _ _ _ _ _ _ H) as (ys & -> & H2). exists ys.
    rewrite rest_values_all. auto.
  - intros (xs & H & ->). exists (map In_rest xs), []. split; [apply all_children_back, H|].
    split; [constructor|]. now rewrite rest_values_all.
Qed.

(** One child field: the values of its name. *)
Lemma one_child_turn (dn : child Sp L -> node_impl Sp (dval L)) d :
  ch_mode d = CmNormal \/ ch_mode d = CmMulti ->
  forall ns before (c : context Sp) bs c',
  in_turn (child_taken dn None [d]) before ns c bs c' ->
  named_values (dn d) (ch_name d) ns c (values_for (ch_name d) ns bs) c'.
Proof.
  intros M. induction ns as [|n ns IH]; intros before c bs c' H.
  - inversion H; subst. constructor.
  - inversion H as [|? ? ? ? c1 ? b bs' T H2]; subst. apply IH in H2. clear IH.
    inversion T as [? d' ? x ? I Q M' B D|? d' ? x ? I Q M' D|? d' ? I Q M'|? d' ? I Q M'|? ? ? ? ? NI V|? ? NI V]; subst;
      try discriminate.
    1, 2: destruct I as [<-|[]]; cbn [values_for];
      destruct (text_eqb_reflect (name_of n) (ch_name d)) as [E|E]; [|congruence];
      exact (NV_take _ _ _ _ _ _ _ _ _ E D H2).
    1, 2: destruct I as [<-|[]]; destruct M; congruence.
    cbn [values_for]. apply NV_other; [|exact H2]. cbn in NI. intuition congruence.
Qed.

Lemma one_child_multi (dn : child Sp L -> node_impl Sp (dval L)) d : ch_mode d = CmMulti ->
  forall ns before (c : context Sp) xs c', named_values (dn d) (ch_name d) ns c xs c' ->
  exists bs, in_turn (child_taken dn None [d]) before ns c bs c'
    /\ values_for (ch_name d) ns bs = xs.
Proof.
  intros M. induction ns as [|n ns IH]; intros before c xs c' H.
  - inversion H; subst. exists []. split; [constructor|reflexivity].
  - inversion H as [|? ? ? c1 ? x xs' Q D H2|? ? ? ? ? Q H2]; subst.
    + destruct (IH (before ++ [n]) _ _ _ H2) as (bs & T & <-). exists (Value_for x :: bs). split.
      * econstructor; [|exact T]. apply (CT_multi _ _ _ _ _ d); auto. now left.
      * cbn [values_for]. destruct (text_eqb_reflect (name_of n) (ch_name d)); congruence.
    + destruct (IH (before ++ [n]) _ _ _ H2) as (bs & T & <-). exists (Unknown :: bs). split.
      * econstructor; [|exact T]. apply CT_unknown; [|reflexivity]. cbn. intuition congruence.
      * reflexivity.
Qed.

Lemma one_child_single (dn : child Sp L -> node_impl Sp (dval L)) d : ch_mode d = CmNormal ->
  forall ns before (c : context Sp) xs c', named_values (dn d) (ch_name d) ns c xs c' ->
  (In (ch_name d) (map name_of before) -> xs = []) -> List.length xs <= 1 ->
  exists bs, in_turn (child_taken dn None [d]) before ns c bs c'
    /\ values_for (ch_name d) ns bs = xs.
Proof.
  intros M. induction ns as [|n ns IH]; intros before c xs c' H B Len.
  - inversion H; subst. exists []. split; [constructor|reflexivity].
  - inversion H as [|? ? ? c1 ? x xs' Q D H2|? ? ? ? ? Q H2]; subst.
    + assert (xs' = []) as -> by (destruct xs'; cbn in Len; [reflexivity|lia]).
      destruct (IH (before ++ [n]) _ _ _ H2) as (bs & T & E); [reflexivity|cbn; lia|].
      exists (Value_for x :: bs). split.
      * econstructor; [|exact T]. apply (CT_single _ _ _ _ _ d); auto; [now left|].
        intros I. rewrite <- Q in B. specialize (B I). discriminate.
      * cbn [values_for]. destruct (text_eqb_reflect (name_of n) (ch_name d)); congruence.
    + destruct (IH (before ++ [n]) _ _ _ H2) as (bs & T & E); [|exact Len|].
      * rewrite map_app, in_app_iff. intros [I|[I|[]]]; [auto|contradiction].
      * exists (Unknown :: bs). split.
        -- econstructor; [|exact T]. apply CT_unknown; [|reflexivity]. cbn. intuition congruence.
        -- exact E.
Qed.

Lemma one_child (dn : child Sp L -> node_impl Sp (dval L)) d ns (c : context Sp) (out : list (dval L)) c' :
  ch_mode d = CmNormal -> ch_option d = false ->
  children_right dn None [d] ns c out c' <->
  exists xs x, named_values (dn d) (ch_name d) ns c xs c' /\ out = [x]
    /\ match xs with [] => ch_default d = Some x | [y] => x = y | _ => False end.
Proof.
  intros M O. unfold children_right. split.
  - intros (bs & xs & H & K & ->). rewrite app_nil_r. inversion K as [|? x ? xs' A B]; subst.
    inversion B; subst. exists (values_for (ch_name d) ns bs), x.
    split; [eapply one_child_turn; eauto|]. split; [reflexivity|].
    inversion A as [? M'|y M' E|y M' E J|M' E|y M' E J|M' E]; subst; try congruence.
    + rewrite E, O. reflexivity.
    + rewrite E. inversion J; subst; congruence.
  - intros (xs & x & H & -> & J).
    destruct (one_child_single dn d M ns [] c xs c' H) as (bs & T & E).
    + intros [].
    + destruct xs as [|? [|? ?]]; [cbn; lia|cbn; lia|destruct J].
    + exists bs, [x]. split; [exact T|]. split; [|reflexivity]. constructor; [|constructor]. rewrite E.
      destruct xs as [|y [|? ?]]; [|subst y|destruct J].
      * apply CH_single_absent; auto. now constructor.
      * pose proof (CH_single ns d [x] x M eq_refl) as C. now rewrite O in C.
Qed.

Lemma one_multi (dn : child Sp L -> node_impl Sp (dval L)) d ns (c : context Sp) (out : list (dval L)) c' :
  ch_mode d = CmMulti -> ch_option d = false ->
  children_right dn None [d] ns c out c' <->
  exists xs x, named_values (dn d) (ch_name d) ns c xs c' /\ out = [x]
    /\ match xs, ch_default d with [], Some y => x = y | _, _ => x = VList xs end.
Proof.
  intros M O. unfold children_right. split.
  - intros (bs & xs & H & K & ->). rewrite app_nil_r. inversion K as [|? x ? xs' A B]; subst.
    inversion B; subst. exists (values_for (ch_name d) ns bs), x.
    split; [eapply one_child_turn; eauto|]. split; [reflexivity|].
    inversion A as [? M'|y M' E|y M' E J|M' E|y M' E J|M' E J]; subst; try congruence.
    + rewrite O. destruct (values_for (ch_name d) ns bs); [congruence|reflexivity].
    + rewrite E. inversion J as [? J'|J' J'']; [now rewrite J'|congruence].
    + now rewrite E, J.
  - intros (xs & x & H & -> & J).
    destruct (one_child_multi dn d M ns [] c xs c' H) as (bs & T & E).
    exists bs, [x]. split; [exact T|]. split; [|reflexivity]. constructor; [|constructor]. rewrite E.
    destruct xs as [|y xs].
    + destruct (ch_default d) as [z|] eqn:Z.
      * subst z. apply CH_multi_absent; auto. now constructor.
      * subst x. apply CH_multi_empty; auto.
    + subst x. pose proof (CH_multi ns d (y :: xs) M) as C. rewrite O in C. apply C. discriminate.
Qed.

End Parts.

Section Unwrap.
Context {Sp L : Type} (kebab : text -> text).
Implicit Types (n : snode Sp) (f : field Sp L) (x : dval L) (c : context Sp).

Lemma unwrap_fn_ok f u n c x c' :
  let s := unwrap_struct kebab (tmp_name (f_attr f)) (f_impl f) u in
  let inner := node_fn kebab f (fa_unwrap u) in
  plain_props (st_properties s) -> plain_children (st_children s) ->
  NoDup (names_of (n_properties (s_value n))) ->
  node_fn kebab f (Some u) n c = (c', DOk x) <->
  exists xs ys zs c1 c2,
    args_right (st_arguments s) (st_var_args s) (n_arguments (s_value n)) c xs c1
    /\ props_right (st_properties s) (st_var_props s) (n_properties (s_value n)) c1 ys c2
    /\ children_right (fun _ => inner)
         (match st_var_children s with Some _ => Some inner | None => None end)
         (st_children s) (node_children (s_value n)) c2 zs c'
    /\ exists l, rev (xs ++ ys ++ zs) = x :: l.
Proof.
  cbv zeta. intros PP PC ND. unfold node_fn at 1.
  set (s := unwrap_struct kebab (tmp_name (f_attr f)) (f_impl f) u) in *.
  destruct u as [mode parse inner default]. cbn [unwrap_fn fa_unwrap]. fold s.
  change (match inner with
          | Some u => unwrap_fn kebab (tmp_name (f_attr f)) (f_impl f) u
          | None => ti_node (f_impl f)
          end) with (node_fn kebab f inner).
  rewrite d_bind_ok. split.
  - intros (xs & c1 & A & H). rewrite d_bind_ok in H. destruct H as (ys & c2 & B & H).
    rewrite d_bind_ok in H. destruct H as (zs & c3 & C & H).
    apply decode_args_ok in A. apply decode_props_ok in B; [|assumption..].
    apply decode_children_ok in C; [|assumption..].
    destruct (rev (xs ++ ys ++ zs)) as [|y l] eqn:E; [discriminate|].
    apply d_ok_ok in H. destruct H as [-> ->]. exists xs, ys, zs, c1, c2. eauto.
  - intros (xs & ys & zs & c1 & c2 & A & B & C & l & E).
    exists xs, c1. split; [apply decode_args_ok, A|]. rewrite d_bind_ok.
    exists ys, c2. split; [apply decode_props_ok; assumption|]. rewrite d_bind_ok.
    exists zs, c'. split; [apply decode_children_ok; assumption|]. rewrite E. reflexivity.
Qed.

Lemma plain_nil_props : plain_props (@nil (prop Sp L)).
Proof. split; constructor. Qed.
Lemma plain_nil_children : plain_children (@nil (child Sp L)).
Proof. split; constructor. Qed.
Lemma plain_one_prop (p : prop Sp L) : pr_flatten p = false -> plain_props [p].
Proof. intros H. split; [cbn; constructor; [intros []|constructor]|constructor; [exact H|constructor]]. Qed.
Lemma plain_one_child (d : child Sp L) : ch_mode d <> CmFlatten -> plain_children [d].
Proof. intros H. split; [cbn; constructor; [intros []|constructor]|constructor; [exact H|constructor]]. Qed.


Lemma unwrap_argument f parse inner default n c x c' :
  NoDup (names_of (n_properties (s_value n))) ->
  node_fn kebab f (Some (inside FmArgument parse inner default)) n c = (c', DOk x) <->
  unwraps_argument f parse default n c x c'.
Proof.
  intros ND. rewrite unwrap_fn_ok; [|apply plain_nil_props|apply plain_nil_children|exact ND].
  cbn [unwrap_struct add_field inside builder_new fa_mode fa_decode fa_default build fa_unwrap
       st_arguments st_var_args st_properties st_var_props st_children st_var_children
       sb_arguments sb_var_args sb_properties sb_var_props sb_children sb_var_children app].
  unfold unwraps_argument, no_child. split.
  - intros (xs & ys & zs & c1 & c2 & A & B & C & l & E).
    apply one_arg in A. apply no_props in B. apply no_children in C.
    destruct A as (y & -> & A), B as (B & -> & ->), C as (-> & ->).
    cbn in E. injection E as -> <-. split; [exact B|]. exists c1. split; [|reflexivity].
    destruct A as [(v & -> & D)|(-> & D & ->)].
    + left. exists v. split; [reflexivity|exact D].
    + right. split; [reflexivity|]. cbn in D. inversion D as [? J|? J]; subst; [auto|discriminate].
  - intros (B & c1 & A & ->). exists [x], [], [], c1, c1. split.
    + apply one_arg. exists x. split; [reflexivity|]. destruct A as [(v & -> & D)|(-> & D & ->)].
      * left. exists v. split; [reflexivity|exact D].
      * right. split; [reflexivity|]. split; [now constructor|reflexivity].
    + split; [apply no_props; auto|]. split; [apply no_children; auto|]. now exists [].
Qed.

Lemma unwrap_arguments f parse inner default n c x c' :
  NoDup (names_of (n_properties (s_value n))) ->
  node_fn kebab f (Some (inside FmArguments parse inner default)) n c = (c', DOk x) <->
  unwraps_arguments f parse n c x c'.
Proof.
  intros ND. rewrite unwrap_fn_ok; [|apply plain_nil_props|apply plain_nil_children|exact ND].
  cbn [unwrap_struct add_field inside builder_new fa_mode fa_decode fa_default build fa_unwrap
       st_arguments st_var_args st_properties st_var_props st_children st_var_children
       sb_arguments sb_var_args sb_properties sb_var_props sb_children sb_var_children app
       new_named f_attr is_some negb andb].
  unfold unwraps_arguments, no_child. split.
  - intros (xs & ys & zs & c1 & c2 & A & B & C & l & E).
    apply all_args in A. apply no_props in B. apply no_children in C.
    destruct A as (vs & A & ->), B as (B & -> & ->), C as (-> & ->).
    cbn in E. injection E as <- <-. split; [exact B|]. exists vs, c1. auto.
  - intros (B & vs & c1 & A & -> & ->). exists [VList vs], [], [], c1, c1.
    split; [apply all_args; exists vs; auto|].
    split; [apply no_props; auto|]. split; [apply no_children; auto|]. now exists [].
Qed.

Lemma unwrap_property_named f parse inner default key n c x c' :
  NoDup (names_of (n_properties (s_value n))) ->
  node_fn kebab f (Some (inside (FmProperty (Some key)) parse inner default)) n c = (c', DOk x) <->
  unwraps_property f parse default key n c x c'.
Proof.
  intros ND. rewrite unwrap_fn_ok; [|apply plain_one_prop; reflexivity|apply plain_nil_children|exact ND].
  cbn [unwrap_struct add_field inside builder_new fa_mode fa_decode fa_default build fa_unwrap
       st_arguments st_var_args st_properties st_var_props st_children st_var_children
       sb_arguments sb_var_args sb_properties sb_var_props sb_children sb_var_children app
       new_named f_attr is_some negb andb].
  unfold unwraps_property, no_child.
  split.
  - intros (xs & ys & zs & c1 & c2 & A & B & C & l & E).
    apply no_args in A. apply one_prop in B; [|exact ND]. apply no_children in C.
    destruct A as (A & -> & ->), B as (y & -> & B), C as (-> & ->).
    cbn in E. injection E as <- <-. split; [exact A|]. exists c2. split; [|reflexivity].
    destruct B as [(k & v & -> & K & D)|(-> & D & ->)].
    + left. exists k, v. split; [reflexivity|]. split; [exact K|exact D].
    + right. split; [reflexivity|]. cbn in D. inversion D as [? J|? J]; subst; [auto|discriminate].
  - intros (A & c1 & B & ->). exists [], [x], [], c, c1. split; [apply no_args; auto|]. split.
    + apply one_prop; [exact ND|]. exists x. split; [reflexivity|].
      destruct B as [(k & v & -> & K & D)|(-> & D & ->)].
      * left. exists k, v. split; [reflexivity|]. split; [exact K|exact D].
      * right. split; [reflexivity|]. split; [now constructor|reflexivity].
    + split; [apply no_children; auto|]. now exists [].
Qed.

Lemma unwrap_property f parse inner default name n c x c' :
  NoDup (names_of (n_properties (s_value n))) ->
  node_fn kebab f (Some (inside (FmProperty name) parse inner default)) n c = (c', DOk x) <->
  unwraps_property f parse default
    (match name with Some k => k | None => kebab (tmp_name (f_attr f)) end) n c x c'.
Proof.
  intros ND. destruct name as [k|].
  - apply unwrap_property_named, ND.
  - exact (unwrap_property_named f parse inner default (kebab (tmp_name (f_attr f))) n c x c' ND).
Qed.

Lemma unwrap_properties f parse inner default n c x c' :
  NoDup (names_of (n_properties (s_value n))) ->
  node_fn kebab f (Some (inside FmProperties parse inner default)) n c = (c', DOk x) <->
  unwraps_properties f parse n c x c'.
Proof.
  intros ND. rewrite unwrap_fn_ok; [|apply plain_nil_props|apply plain_nil_children|exact ND].
  cbn [unwrap_struct add_field inside builder_new fa_mode fa_decode fa_default build fa_unwrap
       st_arguments st_var_args st_properties st_var_props st_children st_var_children
       sb_arguments sb_var_args sb_properties sb_var_props sb_children sb_var_children app
       new_named f_attr is_some negb andb].
  unfold unwraps_properties, no_child. split.
  - intros (xs & ys & zs & c1 & c2 & A & B & C & l & E).
    apply no_args in A. apply all_props in B. apply no_children in C.
    destruct A as (A & -> & ->), B as (kxs & B & ->), C as (-> & ->).
    cbn in E. injection E as <- <-. split; [exact A|]. exists kxs, c2. auto.
  - intros (A & kxs & c1 & B & -> & ->). exists [], [VPairs kxs], [], c, c1.
    split; [apply no_args; auto|].
    split; [apply all_props; exists kxs; auto|]. split; [apply no_children; auto|]. now exists [].
Qed.

Lemma unwrap_children f parse inner default n c x c' :
  NoDup (names_of (n_properties (s_value n))) ->
  node_fn kebab f (Some (inside (FmChildren None) parse inner default)) n c = (c', DOk x) <->
  unwraps_children (node_fn kebab f inner) n c x c'.
Proof.
  intros ND. rewrite unwrap_fn_ok; [|apply plain_nil_props|apply plain_nil_children|exact ND].
  cbn [unwrap_struct add_field inside builder_new fa_mode fa_decode fa_default build fa_unwrap
       st_arguments st_var_args st_properties st_var_props st_children st_var_children
       sb_arguments sb_var_args sb_properties sb_var_props sb_children sb_var_children app
       new_named f_attr is_some negb andb].
  unfold unwraps_children. split.
  - intros (xs & ys & zs & c1 & c2 & A & B & C & l & E).
    apply no_args in A. apply no_props in B. apply all_children in C.
    destruct A as (A & -> & ->), B as (B & -> & ->), C as (vs & C & ->).
    cbn in E. injection E as <- <-. split; [exact A|]. split; [exact B|]. exists vs. auto.
  - intros (A & B & vs & C & ->). exists [], [], [VList vs], c, c.
    split; [apply no_args; auto|]. split; [apply no_props; auto|].
    split; [apply all_children; exists vs; auto|]. now exists [].
Qed.

Lemma unwrap_named f parse inner default name n c x c' :
  NoDup (names_of (n_properties (s_value n))) ->
  node_fn kebab f (Some (inside (FmChildren (Some name)) parse inner default)) n c = (c', DOk x) <->
  unwraps_named (node_fn kebab f inner) default name n c x c'.
Proof.
  intros ND. rewrite unwrap_fn_ok; [|apply plain_nil_props|apply plain_one_child; discriminate|exact ND].
  cbn [unwrap_struct add_field inside builder_new fa_mode fa_decode fa_default build fa_unwrap
       st_arguments st_var_args st_properties st_var_props st_children st_var_children
       sb_arguments sb_var_args sb_properties sb_var_props sb_children sb_var_children app
       new_named f_attr is_some negb andb].
  unfold unwraps_named. split.
  - intros (xs & ys & zs & c1 & c2 & A & B & C & l & E).
    apply no_args in A. apply no_props in B. apply one_multi in C; [|reflexivity..].
    destruct A as (A & -> & ->), B as (B & -> & ->), C as (vs & v & C & -> & J).
    cbn in E. injection E as <- <-. split; [exact A|]. split; [exact B|]. exists vs. auto.
  - intros (A & B & vs & C & J). exists [], [], [x], c, c.
    split; [apply no_args; auto|]. split; [apply no_props; auto|].
    split; [apply one_multi; [reflexivity..|]; exists vs, x; auto|]. now exists [].
Qed.

Lemma unwrap_child f parse inner default n c x c' :
  NoDup (names_of (n_properties (s_value n))) ->
  node_fn kebab f (Some (inside FmChild parse inner default)) n c = (c', DOk x) <->
  unwraps_child (node_fn kebab f inner) default (kebab (tmp_name (f_attr f))) n c x c'.
Proof.
  intros ND. rewrite unwrap_fn_ok; [|apply plain_nil_props|apply plain_one_child; destruct inner; discriminate|exact ND].
  cbn [unwrap_struct add_field inside builder_new fa_mode fa_decode fa_default build fa_unwrap
       st_arguments st_var_args st_properties st_var_props st_children st_var_children
       sb_arguments sb_var_args sb_properties sb_var_props sb_children sb_var_children app
       new_named f_attr is_some negb andb].
  unfold unwraps_child. destruct inner as [u|]; cbn [is_some negb andb]; split.
  1, 3: intros (xs & ys & zs & c1 & c2 & A & B & C & l & E);
    apply no_args in A; apply no_props in B; apply one_child in C; [|reflexivity..];
    destruct A as (A & -> & ->), B as (B & -> & ->), C as (vs & v & C & -> & J);
    cbn in E; injection E as <- <-; split; [exact A|]; split; [exact B|]; exists vs; auto.
  all: intros (A & B & vs & C & J); exists [], [], [x], c, c;
    (split; [apply no_args; auto|]); (split; [apply no_props; auto|]);
    (split; [apply one_child; [reflexivity..|]; exists vs, x; auto|]); now exists [].
Qed.

(** ** Without errors *)

Lemma in_turn_fine {X Y} (g : X -> dec Sp Y) : (forall a, moves appends (g a)) ->
  forall before l c ys c', in_turn (gives g) before l c ys c' -> quiet c c' ->
  Forall2 (fun a y => fine (g a) y) l ys.
Proof.
  intros M before l c ys c' H. induction H as [|before a l c c1 c2 y ys H1 H2 IH]; intros Q.
  - constructor.
  - destruct (appends_quiet c c1 c2) as [Q1 Q2]; auto.
    + specialize (M a c). unfold gives in H1. now rewrite H1 in M.
    + eapply in_turn_appends; [|exact H2]. apply gives_appends, M.
    + constructor; [exists c, c1; auto|auto].
Qed.

Lemma pairs_fine f parse : (forall a, moves appends (value_for f parse a)) ->
  forall before l c kxs c', in_turn (decodes_pair f parse) before l c kxs c' -> quiet c c' ->
  Forall2 (fun kv kx => ti_key_from_str (f_impl f) (s_value (fst kv)) = inl (fst kx)
                          /\ fine (value_for f parse (snd kv)) (snd kx)) l kxs.
Proof.
  intros M before l c ys c' H.
  assert (A : forall b kv c kx c', decodes_pair f parse b kv c kx c' -> appends c c').
  { intros b kv d kx d' [_ E]. specialize (M (snd kv) d). now rewrite E in M. }
  induction H as [|before a l c c1 c2 y ys H1 H2 IH]; intros Q.
  - constructor.
  - destruct (appends_quiet c c1 c2) as [Q1 Q2]; eauto.
    + eapply in_turn_appends; [|exact H2]. exact A.
    + constructor; [|auto]. destruct H1 as [K E]. split; [exact K|]. exists c, c1. auto.
Qed.

Lemma named_appends (g : node_impl Sp (dval L)) name : (forall m, moves appends (g m)) ->
  forall ns c xs c', named_values g name ns c xs c' -> appends c c'.
Proof.
  intros M ns c xs c' H. induction H as [c|m ns c c1 c2 x xs Q D H IH|m ns c c2 xs Q H IH].
  - apply (on_refl _ appends_onward).
  - eapply (on_trans _ appends_onward); [|exact IH]. specialize (M m c). now rewrite D in M.
  - eapply (on_trans _ appends_onward); [|exact IH]. apply appends_app.
Qed.

Lemma named_fine (g : node_impl Sp (dval L)) name : (forall m, moves appends (g m)) ->
  forall ns c xs c', named_values g name ns c xs c' -> quiet c c' ->
  Forall (fun m => name_of m = name) ns /\ Forall2 (fun m x => fine (g m) x) ns xs.
Proof.
  intros M ns c xs c' H. induction H as [c|m ns c c1 c2 x xs Q D H IH|m ns c c2 xs Q H IH]; intros Qu.
  - split; constructor.
  - destruct (appends_quiet c c1 c2) as [Q1 Q2]; auto.
    + specialize (M m c). now rewrite D in M.
    + eapply named_appends; eauto.
    + destruct (IH Q2). split; constructor; auto. exists c, c1. auto.
  - exfalso. destruct (appends_quiet c (with_errors c [unknown_error m]) c2) as [Q1 Q2]; auto.
    + apply appends_app.
    + eapply named_appends; eauto.
    + apply with_errors_quiet in Q1. discriminate.
Qed.

Lemma no_child_quiet n c c1 : appends c c1 -> quiet c (with_errors c1 (no_child n)) ->
  quiet c c1 /\ node_children (s_value n) = [].
Proof.
  intros A Q. destruct (appends_quiet c c1 (with_errors c1 (no_child n))) as [Q1 Q2]; auto.
  - apply appends_app.
  - split; [exact Q1|]. apply with_errors_quiet in Q2. unfold no_child in Q2.
    now destruct (node_children (s_value n)).
Qed.

Lemma unwrap_inside f mode parse inner default n x :
  within appends (f_impl f) -> NoDup (names_of (n_properties (s_value n))) -> unwrappable mode ->
  fine (node_fn kebab f (Some (inside mode parse inner default)) n) x ->
  all_inside kebab f parse inner default n mode x.
Proof.
  intros W ND U (c & c' & H & Q).
  assert (M : forall a, moves appends (value_for f parse a)) by (intros a; apply value_moves, W).
  assert (MN : forall m, moves appends (node_fn kebab f inner m))
    by (intros m; apply adds_node_fn; [apply appends_onward|exact W]).
  destruct mode as [|name| | |[name|]| | | | |]; try destruct U.
  - apply unwrap_argument in H; [|exact ND]. destruct H as (P & c1 & [(a & A & D)|(A & D & ->)] & ->).
    + destruct (no_child_quiet n c c1) as [Q1 C]; auto.
      { specialize (M a c). now rewrite D in M. }
      apply AI_argument with a; [repeat split; assumption|]. exists c, c1. auto.
    + destruct (no_child_quiet n c c) as [_ C]; [apply (on_refl _ appends_onward)|exact Q|].
      apply AI_no_argument; [repeat split; assumption|auto].
  - apply unwrap_property in H; [|exact ND].
    destruct H as (P & c1 & [(k & a & A & K & D)|(A & D & ->)] & ->).
    + destruct (no_child_quiet n c c1) as [Q1 C]; auto.
      { specialize (M a c). now rewrite D in M. }
      apply AI_property with k a; [repeat split; assumption|exact K|]. exists c, c1. auto.
    + destruct (no_child_quiet n c c) as [_ C]; [apply (on_refl _ appends_onward)|exact Q|].
      apply AI_no_property; [repeat split; assumption|auto].
  - apply unwrap_arguments in H; [|exact ND]. destruct H as (P & xs & c1 & A & -> & ->).
    destruct (no_child_quiet n c c1) as [Q1 C]; auto.
    { eapply in_turn_appends; [|exact A]. apply gives_appends, M. }
    apply AI_arguments with (n_arguments (s_value n)); [repeat split; assumption|].
    eapply in_turn_fine; eauto.
  - apply unwrap_properties in H; [|exact ND]. destruct H as (P & xs & c1 & A & -> & ->).
    destruct (no_child_quiet n c c1) as [Q1 C]; auto.
    { eapply in_turn_appends; [|exact A]. intros b kv d kx d' [_ E].
      specialize (M (snd kv) d). now rewrite E in M. }
    apply AI_properties with (n_properties (s_value n)); [repeat split; assumption|].
    eapply pairs_fine; eauto.
  - apply unwrap_named in H; [|exact ND]. destruct H as (A & P & xs & V & J).
    destruct (named_fine _ _ MN _ _ _ _ V Q) as [F1 F2].
    destruct xs as [|y xs].
    + inversion F2 as [E1 E2|]. destruct default as [dv|].
      * subst dv. apply AI_no_named; [repeat split; auto|reflexivity].
      * subst x. apply AI_named with []; [repeat split; auto|constructor|constructor|now right].
    + subst x. apply AI_named with (node_children (s_value n)); [repeat split; auto|exact F1|exact F2|].
      left. inversion F2. discriminate.
  - apply unwrap_children in H; [|exact ND]. destruct H as (A & P & xs & V & ->).
    apply AI_children with (node_children (s_value n)); [repeat split; auto|].
    eapply in_turn_fine; eauto.
  - apply unwrap_child in H; [|exact ND]. destruct H as (A & P & xs & V & J).
    destruct (named_fine _ _ MN _ _ _ _ V Q) as [F1 F2].
    destruct xs as [|y [|? ?]]; [|subst y|destruct J].
    + inversion F2 as [E1 E2|]. apply AI_no_child; [repeat split; auto|exact J].
    + inversion F2 as [|m ? ns ? Fm F3 E1 E2]. inversion F3. subst ns.
      apply AI_child with m; [repeat split; auto| |exact Fm].
      rewrite <- E1 in F1. now inversion F1.
Qed.

End Unwrap.

(** ** In a struct *)

Section Field.
Context {Sp L : Type} (kebab : text -> text) (named : bool) (ident : text) (cont : list (attr L))
  (fs : list (src_field Sp L)) (d : derived Sp L).
Hypothesis D : derives_struct kebab named ident cont fs d.
Hypothesis Ho : Forall (fun f => within appends (sf_impl f)) fs.

Lemma unwrapped_field n v h mode parse inner default m :
  plain_fields kebab fs -> increasing (n_properties (s_value n)) ->
  fine (dr_node d n) v ->
  In h (the_children kebab fs) -> ch_mode h = CmNormal ->
  ch_unwrap h = Some (inside mode parse inner default) -> unwrappable mode ->
  In m (node_children (s_value n)) -> name_of m = ch_name h ->
  increasing (n_properties (s_value m)) ->
  exists x, holds v (ch_field h) (stored h x)
    /\ all_inside kebab (ch_field h) parse inner default m mode x.
Proof.
  intros PF I F Ih Mh U Um Im E Inc.
  destruct (ds_hand kebab named ident cont fs d D Ho n v PF I F) as (_ & _ & H & _).
  specialize (H m Im).
  assert (S : forall h', In h' (the_children kebab fs) -> ch_name h' = name_of m -> h' = h).
  { intros h' I' E'. apply (same_name_child (the_children kebab fs)); [apply PF|auto|auto|congruence]. }
  destruct H as [(h' & x & I' & E' & M' & Fx & Hx & _)|[(h' & x & xs & I' & E' & M' & _)
    |[(h' & I' & E' & M' & _)|(f & u & x & xs & _ & NI & _)]]].
  - apply S in E'; [|exact I']. subst h'. exists x. split; [exact Hx|].
    unfold child_fn in Fx. rewrite U in Fx. apply unwrap_inside; auto.
    + destruct D as (Hd & Pr & Nn).
      destruct (fields_within kebab named ident cont fs d Hd Pr Nn Ho) as (_ & _ & _ & W).
      rewrite Forall_forall in W. apply W. unfold child_fields. apply in_app_iff. left.
      apply in_map, Ih.
    + now apply increasing_names.
  - apply S in E'; [|exact I']. congruence.
  - apply S in E'; [|exact I']. congruence.
  - exfalso. apply NI. rewrite E. apply in_map, Ih.
Qed.

End Field.
