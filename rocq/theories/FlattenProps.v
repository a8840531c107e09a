(** Flattening is inlining. *)

From Coq Require Import NArith List Bool String Lia Permutation.
From Verif Require Import Chars Ast Errors Chumsky Kdl Decode Scalar DecodeSpec DecodeProps ScalarProps
  DeriveDef Derive DeriveSpec DeriveProps FieldSpec FieldProps StructSpec StructProps HandSpec
  HandProps HonestProps MissProps FlattenSpec.
Import ListNotations.

Section Lists.
Context {Sp L : Type}.

Lemma set_field_app (a : access) (x y : dval L) K1 K2 : ~ In a (map fst K1) ->
  set_field a x (K1 ++ (a, y) :: K2) = K1 ++ (a, x) :: K2.
Proof.
  induction K1 as [|[b z] K1 IH]; cbn; intros H.
  - destruct (access_eqb a a) eqn:E; [reflexivity|].
    rewrite (proj2 (access_eqb_spec a a) eq_refl) in E. discriminate.
  - destruct (access_eqb a b) eqn:E.
    + apply access_eqb_spec in E. subst. exfalso. apply H. now left.
    + f_equal. apply IH. tauto.
Qed.

Lemma get_field_app (a : access) (y : dval L) K1 K2 : ~ In a (map fst K1) ->
  get_field a (K1 ++ (a, y) :: K2) = Some y.
Proof.
  induction K1 as [|[b z] K1 IH]; cbn; intros H.
  - now rewrite (proj2 (access_eqb_spec a a) eq_refl).
  - destruct (access_eqb a b) eqn:E.
    + apply access_eqb_spec in E. subst. exfalso. apply H. now left.
    + apply IH. tauto.
Qed.

Lemma nodup_mid {A} (K1 : list A) a K2 : NoDup (K1 ++ a :: K2) -> ~ In a K1.
Proof. intros H I. apply NoDup_remove_2 in H. apply H. apply in_or_app. now left. Qed.

Lemma collect_app {A B} (f : A -> dec Sp B) l1 l2 c :
  d_collect f (l1 ++ l2) c
  = match d_collect f l1 c with
    | (c1, DOk ys) => d_map (fun zs => ys ++ zs) (d_collect f l2) c1
    | (c1, DErr e) => (c1, DErr e)
    | (c1, DPanic) => (c1, DPanic)
    end.
Proof.
  revert c. induction l1 as [|x l1 IH]; intros c; cbn [app d_collect].
  - unfold d_ok, d_map, d_bind. destruct (d_collect f l2 c) as [? [| |]]; reflexivity.
  - unfold d_bind, d_map, d_ok. destruct (f x c) as [c1 [y| |]]; try reflexivity.
    unfold d_bind. rewrite IH. destruct (d_collect f l1 c1) as [c2 [ys| |]]; try reflexivity.
    unfold d_map, d_bind, d_ok. destruct (d_collect f l2 c2) as [? [| |]]; reflexivity.
Qed.

Lemma combine_app {A B} (l1 l2 : list A) (m1 m2 : list B) : List.length l1 = List.length m1 ->
  combine (l1 ++ l2) (m1 ++ m2) = combine l1 m1 ++ combine l2 m2.
Proof.
  revert m1. induction l1 as [|x l1 IH]; intros [|y m1] H; try discriminate; [reflexivity|].
  cbn. f_equal. apply IH. now injection H.
Qed.

Lemma same_bind {A B A' B'} (R : A -> A' -> Prop) (Q : B -> B' -> Prop) (m : dec Sp A) (m' : dec Sp A')
    (f : A -> dec Sp B) (f' : A' -> dec Sp B') c :
  same_outcome R (m c) (m' c) ->
  (forall x y c1, R x y -> same_outcome Q (f x c1) (f' y c1)) ->
  same_outcome Q (d_bind m f c) (d_bind m' f' c).
Proof.
  unfold d_bind. destruct (m c) as [c1 o], (m' c) as [c2 o']. intros [E H] K. cbn in E. subst.
  destruct o, o'; cbn in H; try contradiction; [now apply K| |]; split; auto.
Qed.

Lemma same_refl {A} (r : context Sp * dout Sp A) : same_outcome eq r r.
Proof. split; [reflexivity|]. now destruct (snd r). Qed.

Lemma same_weaken {A B} (R Q : A -> B -> Prop) (r : context Sp * dout Sp A) r' :
  (forall x y, R x y -> Q x y) -> same_outcome R r r' -> same_outcome Q r r'.
Proof.
  intros H [E K]. split; [assumption|]. destruct (snd r), (snd r'); auto.
Qed.

Lemma same_map {A B A' B'} (R : A -> A' -> Prop) (Q : B -> B' -> Prop) (m : dec Sp A) (m' : dec Sp A')
    (f : A -> B) (f' : A' -> B') c :
  same_outcome R (m c) (m' c) -> (forall x y, R x y -> Q (f x) (f' y)) ->
  same_outcome Q (d_map f m c) (d_map f' m' c).
Proof.
  intros H K. unfold d_map. eapply same_bind; [exact H|]. intros x y c1 E. split; cbn; auto.
Qed.

End Lists.

(** ** Properties *)

Section Props.
Context {Sp L : Type}.

Definition flat_prop (g : prop Sp L) : Prop :=
  pr_option g = true /\ pr_flatten g = false /\ pr_default g = None.

(** The fields of the inner struct and the variables of the inlined one. *)
Inductive prop_vars : list (prop Sp L) -> list (access * dval L) -> list (prop_slot L) -> Prop :=
| PV_nil : prop_vars [] [] []
| PV_cons g G x seen K T : flat_prop g -> prop_vars G K T ->
    prop_vars (g :: G) ((f_attr (pr_field g), x) :: K) (POption x seen :: T).

Lemma insert_flat : forall G K2 T, prop_vars G K2 T ->
  forall K1 P2 S2 k v c, NoDup (map fst (K1 ++ K2)) ->
  match insert_property G (K1 ++ K2) k v c with
  | (c', DOk (true, self)) => exists K' T', self = K1 ++ K' /\ prop_vars G K' T'
      /\ map fst K' = map fst K2
      /\ prop_branches (G ++ P2) (T ++ S2) k v c = (c', DOk (true, T' ++ S2))
  | (c', DOk (false, self)) => c' = c /\ self = K1 ++ K2
      /\ prop_branches (G ++ P2) (T ++ S2) k v c
         = d_map (fun '(t, ss) => (t, T ++ ss)) (prop_branches P2 S2 k v) c
  | (c', DErr e) => prop_branches (G ++ P2) (T ++ S2) k v c = (c', DErr e)
  | (c', DPanic) => prop_branches (G ++ P2) (T ++ S2) k v c = (c', DPanic)
  end.
Proof.
  induction 1 as [|g G x seen K T Hg V IH]; intros K1 P2 S2 k v c N.
  - cbn [insert_property d_ok app]. split; [reflexivity|]. split; [reflexivity|].
    unfold d_map, d_bind, d_ok. destruct (prop_branches P2 S2 k v c) as [? [[]| |]]; reflexivity.
  - destruct Hg as (O & F & D). cbn [insert_property app prop_branches]. rewrite F, O.
    destruct (text_eqb (s_value k) (pr_name g)).
    + unfold d_map, d_bind, d_ok.
      destruct (decode_value _ true _ v c) as [c1 [y| |]]; try reflexivity.
      rewrite map_app in N. cbn [map fst] in N. apply nodup_mid in N.
      rewrite set_field_app by assumption.
      exists ((f_attr (pr_field g), y) :: K), (POption y true :: T).
      split; [reflexivity|]. split; [constructor; [repeat split; assumption|assumption]|].
      split; reflexivity.
    + specialize (IH (K1 ++ [(f_attr (pr_field g), x)]) P2 S2 k v c).
      rewrite <- app_assoc in IH. specialize (IH N).
      destruct (insert_property G (K1 ++ [(f_attr (pr_field g), x)] ++ K) k v c)
        as [c1 [[[] self]| |]] eqn:E; cbn [app] in E; rewrite E.
      * destruct IH as (K' & T' & -> & V' & M & IH).
        exists ((f_attr (pr_field g), x) :: K'), (POption x seen :: T').
        rewrite <- app_assoc. split; [reflexivity|].
        split; [constructor; [repeat split; assumption|assumption]|].
        split; [cbn; now rewrite M|]. unfold d_map, d_bind. now rewrite IH.
      * destruct IH as (-> & -> & IH). split; [reflexivity|]. split; [reflexivity|].
        unfold d_map, d_bind, d_ok in *. rewrite IH.
        destruct (prop_branches P2 S2 k v c) as [? [[]| |]]; reflexivity.
      * unfold d_map, d_bind. now rewrite IH.
      * unfold d_map, d_bind. now rewrite IH.
Qed.

Lemma finish_vars n G K T : prop_vars G K T -> forall c,
  d_collect (prop_finish n) (combine G T) c = (c, DOk (map snd K)).
Proof.
  induction 1 as [|g G' x seen K T Hg V IH]; intros c; cbn [combine d_collect map snd]; [reflexivity|].
  unfold d_bind. cbn [prop_finish]. destruct Hg as (_ & _ & ->). unfold d_ok at 1.
  unfold d_map, d_bind. now rewrite IH.
Qed.

Lemma vars_length G K T : prop_vars G K T -> List.length G = List.length T /\ List.length G = List.length K
  /\ map fst K = map (fun g => f_attr (pr_field g)) G.
Proof. induction 1 as [|g G' x seen K T _ _ (IH1 & IH2 & IH3)]; cbn; [auto|]. now rewrite IH1, IH2, IH3 in *. Qed.

Variables (P1 G P2 : list (prop Sp L)) (fp : prop Sp L) (inner : text).

(** The inner struct takes properties as its derive says. *)
Hypothesis Hf : pr_flatten fp = true.
Hypothesis Hi : forall K k v,
  ti_insert_property (f_impl (pr_field fp)) (VStruct inner K) k v
  = on_self (fun fs => insert_property G fs k v) (VStruct inner K).

Definition prop_match (slots slots' : list (prop_slot L)) : Prop :=
  exists S1 K T S2, slots = S1 ++ PFlat (VStruct inner K) :: S2 /\ slots' = S1 ++ T ++ S2
    /\ List.length S1 = List.length P1 /\ prop_vars G K T /\ NoDup (map fst K).

Lemma branches_match slots slots' k v c : prop_match slots slots' ->
  same_outcome (fun x y => fst x = fst y /\ prop_match (snd x) (snd y))
    (prop_branches (P1 ++ fp :: P2) slots k v c) (prop_branches (P1 ++ G ++ P2) slots' k v c).
Proof.
  intros (S1 & K & T & S2 & -> & -> & Ln & V & N).
  assert (H : forall l S1 c, List.length S1 = List.length l ->
    same_outcome (fun x y => fst x = fst y /\ exists S1' K T S2,
        snd x = S1' ++ PFlat (VStruct inner K) :: S2 /\ snd y = S1' ++ T ++ S2
        /\ List.length S1' = List.length l /\ prop_vars G K T /\ NoDup (map fst K))
      (prop_branches (l ++ fp :: P2) (S1 ++ PFlat (VStruct inner K) :: S2) k v c)
      (prop_branches (l ++ G ++ P2) (S1 ++ T ++ S2) k v c)); [|now apply H].
  clear S1 Ln c. induction l as [|p l IH]; intros [|sl S1] c Ln; try discriminate.
  - cbn [app prop_branches]. unfold d_bind. rewrite Hi. unfold on_self, d_map, d_bind.
    pose proof (insert_flat G K T V [] P2 S2 k v c N) as I. cbn [app] in I.
    destruct (insert_property G K k v c) as [c1 [[[] self]| |]].
    + destruct I as (K' & T' & -> & V' & M & ->). cbn. split; [reflexivity|]. cbn.
      split; [reflexivity|]. exists [], K', T', S2. repeat split; auto. now rewrite M.
    + destruct I as (-> & -> & ->). cbn. unfold d_map, d_bind, d_ok.
      destruct (prop_branches P2 S2 k v c) as [c1 [[t ss]| |]]; split; try reflexivity.
      cbn. split; [reflexivity|]. now exists [], K, T, ss.
    + rewrite I. split; reflexivity.
    + rewrite I. split; reflexivity.
  - injection Ln as Ln. specialize (IH S1).
    assert (J : forall c, same_outcome (fun x y => fst x = fst y /\ exists S1' K T S2,
        snd x = S1' ++ PFlat (VStruct inner K) :: S2 /\ snd y = S1' ++ T ++ S2
        /\ List.length S1' = List.length (p :: l) /\ prop_vars G K T /\ NoDup (map fst K))
      (d_map (fun '(t, ss) => (t, sl :: ss))
         (prop_branches (l ++ fp :: P2) (S1 ++ PFlat (VStruct inner K) :: S2) k v) c)
      (d_map (fun '(t, ss) => (t, sl :: ss)) (prop_branches (l ++ G ++ P2) (S1 ++ T ++ S2) k v) c)).
    { intros c1. eapply same_map; [now apply IH|]. intros [t ss] [t' ss'] (E & S' & K' & T' & S2' & H).
      cbn in E, H |- *. destruct H as (-> & -> & Ls & V' & N'). split; [assumption|].
      exists (sl :: S'), K', T', S2'. cbn. repeat split; auto. }
    cbn [app prop_branches]. destruct sl as [x|x seen|x].
    + eapply same_bind; [apply same_refl|]. intros [taken x'] y c1 <-. destruct taken.
      * cbn. split; [reflexivity|]. cbn. split; [reflexivity|].
        exists (PFlat x' :: S1), K, T, S2. cbn. repeat split; auto.
      * clear J. eapply same_map; [now apply IH|].
        intros [t ss] [t' ss'] (E & S' & K' & T' & S2' & H).
        cbn in E, H |- *. destruct H as (-> & -> & Ls & V' & N'). split; [assumption|].
        exists (PFlat x' :: S'), K', T', S2'. cbn. repeat split; auto.
    + destruct (text_eqb (s_value k) (pr_name p)); [|apply J].
      eapply same_map; [apply same_refl|]. intros x0 y <-. cbn. split; [reflexivity|].
      eexists (_ :: S1), K, T, S2. cbn. repeat split; auto.
    + destruct (text_eqb (s_value k) (pr_name p)); [|apply J].
      eapply same_map; [apply same_refl|]. intros x0 y <-. cbn. split; [reflexivity|].
      eexists (_ :: S1), K, T, S2. cbn. repeat split; auto.
Qed.

Variables s s' : struct Sp L.
Hypothesis Hs : st_properties s = P1 ++ fp :: P2.
Hypothesis Hs' : st_properties s' = P1 ++ G ++ P2.
Hypothesis Hv : st_var_props s = st_var_props s'.

Lemma loop_match : forall kvs slots slots' rest c, prop_match slots slots' ->
  same_outcome (fun x y => prop_match (fst x) (fst y) /\ snd x = snd y)
    (prop_loop s slots rest kvs c) (prop_loop s' slots' rest kvs c).
Proof.
  induction kvs as [|[k v] kvs IH]; intros slots slots' rest c M; cbn [prop_loop].
  - split; [reflexivity|]. cbn. auto.
  - eapply same_bind; [rewrite Hs, Hs'; now apply branches_match|].
    intros [t ss] [t' ss'] c1 [E M']. cbn in E, M'. subst t'. rewrite Hv. destruct t.
    + now apply IH.
    + destruct (st_var_props s') as [[f m]|].
      * eapply same_bind; [apply same_refl|]. intros x y c2 <-.
        eapply same_bind; [apply same_refl|]. intros z w c3 <-. now apply IH.
      * split; reflexivity.
Qed.

(** The values of the properties. *)
Definition props_spliced (ys ys' : list (dval L)) : Prop :=
  exists Y1 K Y2, ys = Y1 ++ VStruct inner K :: Y2 /\ ys' = Y1 ++ map snd K ++ Y2
    /\ List.length Y1 = List.length P1 /\ map fst K = map (fun g => f_attr (pr_field g)) G.

Lemma props_match n c :
  Forall flat_prop G -> NoDup (map (fun g => f_attr (pr_field g)) G) ->
  ti_default (f_impl (pr_field fp)) = VStruct inner (map (fun g => (f_attr (pr_field g), VNone)) G) ->
  same_outcome props_spliced (decode_props s n c) (decode_props s' n c).
Proof.
  intros HG N D. unfold decode_props. eapply same_bind.
  - apply loop_match. rewrite Hs, Hs', !map_app. cbn [map].
    exists (map prop_start P1), (map (fun g => (f_attr (pr_field g), VNone)) G),
      (map prop_start G), (map prop_start P2).
    split; [unfold prop_start at 2; now rewrite Hf, D|]. split; [reflexivity|].
    split; [now rewrite map_length|]. split; [|now rewrite map_map].
    clear N D Hi Hs'. induction HG as [|g G' Hg HG IH]; cbn [map]; [constructor|].
    unfold prop_start at 1. pose proof Hg as (O & F & _). rewrite F, O. now constructor.
  - intros [slots rest] [slots' rest'] c1 [M E]. cbn in M, E. subst rest'.
    destruct M as (S1 & K & T & S2 & -> & -> & Ln & V & NK).
    destruct (vars_length _ _ _ V) as (LT & LK & MK).
    eapply same_map with (R := props_spliced).
    + rewrite Hs, Hs', !combine_app by congruence. cbn [combine]. rewrite !collect_app.
      destruct (d_collect (prop_finish n) (combine P1 S1) c1) as [c2 [Y1| |]] eqn:EY;
        [|split; reflexivity|split; reflexivity].
      apply collect_length in EY. rewrite combine_length in EY.
      cbn [d_collect]. unfold d_map, d_bind at 1 2. cbn [prop_finish]. unfold d_ok at 1.
      cbv beta iota. unfold d_bind. rewrite collect_app, (finish_vars n G K T V).
      unfold d_map, d_bind, d_ok.
      destruct (d_collect (prop_finish n) (combine P2 S2) c2) as [c3 [Y2| |]]; split; try reflexivity.
      cbn. exists Y1, K, Y2. repeat split; auto. rewrite EY. lia.
    + intros ys ys' (Y1 & K' & Y2 & -> & -> & L1 & M'). rewrite Hv.
      eexists Y1, K', (Y2 ++ _). rewrite <- !app_assoc. cbn. rewrite <- ?app_assoc. repeat split; auto.
Qed.

End Props.

(** ** Children *)

Section Sim.
Context {Sp : Type}.

Lemma loud_after (c c1 c2 : context Sp) : loud c c1 -> appends c1 c2 -> loud c c2.
Proof.
  intros (es & N & E) (es' & E'). exists (es ++ es'). split.
  - destruct es; [congruence|discriminate].
  - now rewrite E', E, app_assoc.
Qed.

Lemma loud_before (c c1 c2 : context Sp) : appends c c1 -> loud c1 c2 -> loud c c2.
Proof.
  intros (es' & E') (es & N & E). exists (es' ++ es). split.
  - destruct es'; [assumption|discriminate].
  - now rewrite E, E', app_assoc.
Qed.

Lemma loud_not_quiet (c c' : context Sp) : loud c c' -> c_errors c' = c_errors c -> False.
Proof.
  intros (es & N & E) Q. rewrite Q in E. rewrite <- (app_nil_r (c_errors c)) in E at 1.
  apply app_inv_head in E. congruence.
Qed.

Lemma sim_bind {A B A' B'} (R : A -> A' -> Prop) (Q : B -> B' -> Prop) (m : dec Sp A) (m' : dec Sp A')
    (f : A -> dec Sp B) (f' : A' -> dec Sp B') c :
  sim c R (m c) (m' c) -> moves appends m -> (forall x, moves appends (f x)) ->
  (forall x y c1, R x y -> sim c1 Q (f x c1) (f' y c1)) ->
  sim c Q (d_bind m f c) (d_bind m' f' c).
Proof.
  intros H Mm Mf K. specialize (Mm c). unfold d_bind.
  destruct (m c) as [c1 o], (m' c) as [c2 o']. cbn [fst] in Mm. destruct H as [[E H]|[Ld (c3 & e & E)]].
  - cbn in E. subst c2. destruct o, o'; cbn in H; try contradiction.
    + destruct (K _ _ c1 H) as [S|[Ld X]]; [now left|right]. split; [|assumption].
      eapply loud_before; eauto.
    + subst. left. split; reflexivity.
    + left. split; reflexivity.
  - right. injection E as -> ->. cbn [fst] in Ld. split; [|eauto].
    destruct o as [x| |]; cbn [fst]; try assumption. eapply loud_after; [exact Ld|apply Mf].
Qed.

Lemma sim_same {A B} c (R : A -> B -> Prop) (r : context Sp * dout Sp A) r' :
  same_outcome R r r' -> sim c R r r'.
Proof. now left. Qed.

Lemma sim_map {A B A' B'} (R : A -> A' -> Prop) (Q : B -> B' -> Prop) (m : dec Sp A) (m' : dec Sp A')
    (f : A -> B) (f' : A' -> B') c :
  sim c R (m c) (m' c) -> moves appends m -> (forall x y, R x y -> Q (f x) (f' y)) ->
  sim c Q (d_map f m c) (d_map f' m' c).
Proof.
  intros H M K. unfold d_map. eapply sim_bind; [exact H|exact M| |].
  - intros x. apply adds_ok, appends_onward.
  - intros x y c1 E. left. split; cbn; auto.
Qed.

Lemma emit_loud (c : context Sp) e : loud c (emit_error e c).
Proof. exists [e]. split; [discriminate|]. reflexivity. Qed.

End Sim.

Section Children.
Context {Sp L : Type} (kebab : text -> text).

Definition flat_child (g : child Sp L) : Prop :=
  ch_mode g = CmBool \/ (ch_mode g = CmNormal /\ ch_option g = true /\ ch_default g = None).

Inductive child_vars : list (child Sp L) -> list (access * dval L) -> list (child_slot L) -> Prop :=
| CV_nil : child_vars [] [] []
| CV_flag g G b K T : ch_mode g = CmBool -> child_vars G K T ->
    child_vars (g :: G) ((f_attr (ch_field g), VBool b) :: K) (CBool b :: T)
| CV_none g G K T : ch_mode g = CmNormal -> ch_option g = true -> ch_default g = None ->
    child_vars G K T ->
    child_vars (g :: G) ((f_attr (ch_field g), VNone) :: K) (CNormal None :: T)
| CV_some g G x K T : ch_mode g = CmNormal -> ch_option g = true -> ch_default g = None ->
    child_vars G K T ->
    child_vars (g :: G) ((f_attr (ch_field g), VSome x) :: K) (CNormal (Some x) :: T).

(** A child that is not for the first field. *)
Lemma child_skip (g : child Sp L) G K1 k K T sl P2 S2 n c :
  (forall P2 S2, child_branches (child_fn kebab) (g :: G ++ P2) (sl :: T ++ S2) n c
     = d_map (fun '(t, ss) => (t, sl :: ss)) (child_branches (child_fn kebab) (G ++ P2) (T ++ S2) n) c) ->
  insert_child kebab (g :: G) (K1 ++ k :: K) n c = insert_child kebab G ((K1 ++ [k]) ++ K) n c ->
  fst k = f_attr (ch_field g) ->
  (forall K' T', child_vars G K' T' -> child_vars (g :: G) (k :: K') (sl :: T')) ->
  ((loud c (fst (insert_child kebab G ((K1 ++ [k]) ++ K) n c))
    /\ exists e, child_branches (child_fn kebab) (G ++ P2) (T ++ S2) n c = (c, DErr e))
  \/ match insert_child kebab G ((K1 ++ [k]) ++ K) n c with
     | (c', DOk (true, self)) => exists K' T', self = (K1 ++ [k]) ++ K' /\ child_vars G K' T'
         /\ map fst K' = map fst K
         /\ child_branches (child_fn kebab) (G ++ P2) (T ++ S2) n c = (c', DOk (true, T' ++ S2))
     | (c', DOk (false, self)) => c' = c /\ self = (K1 ++ [k]) ++ K
         /\ child_branches (child_fn kebab) (G ++ P2) (T ++ S2) n c
            = d_map (fun '(t, ss) => (t, T ++ ss)) (child_branches (child_fn kebab) P2 S2 n) c
     | (c', DErr e) => child_branches (child_fn kebab) (G ++ P2) (T ++ S2) n c = (c', DErr e)
     | (c', DPanic) => child_branches (child_fn kebab) (G ++ P2) (T ++ S2) n c = (c', DPanic)
     end) ->
  (loud c (fst (insert_child kebab (g :: G) (K1 ++ k :: K) n c))
    /\ exists e, child_branches (child_fn kebab) ((g :: G) ++ P2) ((sl :: T) ++ S2) n c = (c, DErr e))
  \/ match insert_child kebab (g :: G) (K1 ++ k :: K) n c with
     | (c', DOk (true, self)) => exists K' T', self = K1 ++ K' /\ child_vars (g :: G) K' T'
         /\ map fst K' = map fst (k :: K)
         /\ child_branches (child_fn kebab) ((g :: G) ++ P2) ((sl :: T) ++ S2) n c
            = (c', DOk (true, T' ++ S2))
     | (c', DOk (false, self)) => c' = c /\ self = K1 ++ k :: K
         /\ child_branches (child_fn kebab) ((g :: G) ++ P2) ((sl :: T) ++ S2) n c
            = d_map (fun '(t, ss) => (t, (sl :: T) ++ ss)) (child_branches (child_fn kebab) P2 S2 n) c
     | (c', DErr e) =>
         child_branches (child_fn kebab) ((g :: G) ++ P2) ((sl :: T) ++ S2) n c = (c', DErr e)
     | (c', DPanic) =>
         child_branches (child_fn kebab) ((g :: G) ++ P2) ((sl :: T) ++ S2) n c = (c', DPanic)
     end.
Proof.
  intros B E _ V H. rewrite E. cbn [app]. rewrite B. clear E B.
  destruct H as [[Ld (e & H)]|H].
  - left. split; [assumption|]. exists e. unfold d_map, d_bind. now rewrite H.
  - right. destruct (insert_child kebab G ((K1 ++ [k]) ++ K) n c) as [c1 [[[] self]| |]].
    + destruct H as (K' & T' & -> & V' & M & H). exists (k :: K'), (sl :: T').
      rewrite <- app_assoc. split; [reflexivity|]. split; [now apply V|].
      split; [cbn; now rewrite M|]. unfold d_map, d_bind. now rewrite H.
    + destruct H as (-> & -> & H). split; [reflexivity|]. split; [now rewrite <- app_assoc|].
      unfold d_map, d_bind, d_ok in *. rewrite H.
      destruct (child_branches (child_fn kebab) P2 S2 n c) as [? [[]| |]]; reflexivity.
    + unfold d_map, d_bind. now rewrite H.
    + unfold d_map, d_bind. now rewrite H.
Qed.

Lemma insert_flat_child : forall G K2 T, child_vars G K2 T ->
  Forall (fun g : child Sp L => within appends (f_impl (ch_field g))) G ->
  forall K1 P2 S2 n c, NoDup (map fst (K1 ++ K2)) ->
  (loud c (fst (insert_child kebab G (K1 ++ K2) n c))
    /\ exists e, child_branches (child_fn kebab) (G ++ P2) (T ++ S2) n c = (c, DErr e))
  \/ match insert_child kebab G (K1 ++ K2) n c with
     | (c', DOk (true, self)) => exists K' T', self = K1 ++ K' /\ child_vars G K' T'
         /\ map fst K' = map fst K2
         /\ child_branches (child_fn kebab) (G ++ P2) (T ++ S2) n c = (c', DOk (true, T' ++ S2))
     | (c', DOk (false, self)) => c' = c /\ self = K1 ++ K2
         /\ child_branches (child_fn kebab) (G ++ P2) (T ++ S2) n c
            = d_map (fun '(t, ss) => (t, T ++ ss)) (child_branches (child_fn kebab) P2 S2 n) c
     | (c', DErr e) => child_branches (child_fn kebab) (G ++ P2) (T ++ S2) n c = (c', DErr e)
     | (c', DPanic) => child_branches (child_fn kebab) (G ++ P2) (T ++ S2) n c = (c', DPanic)
     end.
Proof.
  induction 1 as [|g G b K T Mo V IH|g G K T Mo O D V IH|g G x K T Mo O D V IH]; intros W K1 P2 S2 n c N.
  - right. cbn [insert_child d_ok app]. split; [reflexivity|]. split; [reflexivity|].
    unfold d_map, d_bind, d_ok.
    destruct (child_branches (child_fn kebab) P2 S2 n c) as [? [[]| |]]; reflexivity.
  - inversion W as [|? ? W1 W2]; subst. pose proof N as N'. rewrite map_app in N'. cbn [map fst] in N'.
    apply nodup_mid in N'.
    destruct (text_eqb (s_value (n_node_name (s_value n))) (ch_name g)) eqn:Q.
    + right. cbn [insert_child app child_branches]. rewrite Mo, Q. cbv beta zeta.
      rewrite get_field_app by assumption. destruct b.
      * exists ((f_attr (ch_field g), VBool true) :: K), (CBool true :: T).
        split; [reflexivity|]. split; [now constructor|]. split; reflexivity.
      * rewrite set_field_app by assumption.
        exists ((f_attr (ch_field g), VBool true) :: K), (CBool true :: T).
        split; [reflexivity|]. split; [now constructor|]. split; reflexivity.
    + apply child_skip.
      * intros P S. cbn [child_branches]. now rewrite Q.
      * cbn [insert_child]. rewrite Mo, Q. now rewrite <- app_assoc.
      * reflexivity.
      * intros K' T' V'. now constructor.
      * apply IH; [assumption|]. now rewrite <- app_assoc.
  - inversion W as [|? ? W1 W2]; subst. pose proof N as N'. rewrite map_app in N'. cbn [map fst] in N'.
    apply nodup_mid in N'.
    destruct (text_eqb (s_value (n_node_name (s_value n))) (ch_name g)) eqn:Q.
    + right. cbn [insert_child app child_branches]. rewrite Mo, Q.
      rewrite get_field_app by assumption. unfold d_map, d_bind, d_ok.
      destruct (child_fn kebab g n c) as [c1 [y| |]]; try reflexivity.
      rewrite set_field_app by assumption.
      exists ((f_attr (ch_field g), VSome y) :: K), (CNormal (Some y) :: T).
      split; [reflexivity|]. split; [now constructor|]. split; reflexivity.
    + apply child_skip.
      * intros P S. cbn [child_branches]. now rewrite Q.
      * cbn [insert_child]. rewrite Mo, Q. now rewrite <- app_assoc.
      * reflexivity.
      * intros K' T' V'. now constructor.
      * apply IH; [assumption|]. now rewrite <- app_assoc.
  - inversion W as [|? ? W1 W2]; subst. pose proof N as N'. rewrite map_app in N'. cbn [map fst] in N'.
    apply nodup_mid in N'.
    destruct (text_eqb (s_value (n_node_name (s_value n))) (ch_name g)) eqn:Q.
    + left. cbn [insert_child app child_branches]. rewrite Mo, Q. split.
      * rewrite get_field_app by assumption. unfold d_map, d_bind, d_emit, d_ok.
        pose proof (adds_node_fn appends appends_onward kebab (ch_field g) (ch_unwrap g) n W1
          (emit_error (duplicate_node g n) c)) as A.
        unfold child_fn. destruct (node_fn kebab (ch_field g) (ch_unwrap g) n _) as [c1 [y| |]];
          cbn [fst] in A |- *; eapply loud_after; try exact A; apply emit_loud.
      * eexists. reflexivity.
    + apply child_skip.
      * intros P S. cbn [child_branches]. now rewrite Q.
      * cbn [insert_child]. rewrite Mo, Q. now rewrite <- app_assoc.
      * reflexivity.
      * intros K' T' V'. now constructor.
      * apply IH; [assumption|]. now rewrite <- app_assoc.
Qed.

Lemma child_finish_vars es G K T : child_vars G K T -> forall c,
  d_collect (Sp := Sp) (child_finish es) (combine G T) c = (c, DOk (map snd K)).
Proof.
  induction 1 as [|g G b K T Mo V IH|g G K T Mo O D V IH|g G x K T Mo O D V IH]; intros c;
    cbn [combine d_collect map snd]; [reflexivity| | |];
    unfold d_bind; cbn [child_finish]; rewrite ?D, ?O; unfold d_ok at 1;
    unfold d_map, d_bind; now rewrite IH.
Qed.

Lemma child_vars_length G K T : child_vars G K T ->
  List.length G = List.length T /\ List.length G = List.length K
  /\ map fst K = map (fun g => f_attr (ch_field g)) G.
Proof.
  induction 1 as [|g G b K T Mo V (IH1 & IH2 & IH3)|g G K T Mo O D V (IH1 & IH2 & IH3)
    |g G x K T Mo O D V (IH1 & IH2 & IH3)]; cbn; [auto| | |]; now rewrite IH1, IH2, IH3 in *.
Qed.

Definition child_empty (g : child Sp L) : access * dval L :=
  (f_attr (ch_field g), match ch_mode g with CmBool => VBool false | _ => VNone end).

Lemma child_vars_start G : Forall flat_child G ->
  child_vars G (map child_empty G) (map child_start G).
Proof.
  induction 1 as [|g G Hg HG IH]; cbn [map]; [constructor|].
  unfold child_empty at 1, child_start at 1. destruct Hg as [E|(E & O & D)]; rewrite E; now constructor.
Qed.

Variables (P1 G P2 : list (child Sp L)) (fp : child Sp L) (inner : text).

Hypothesis Hf : ch_mode fp = CmFlatten.
Hypothesis Hi : forall K n,
  ti_insert_child (f_impl (ch_field fp)) (VStruct inner K) n
  = on_self (fun fs => insert_child kebab G fs n) (VStruct inner K).
Hypothesis WP : Forall (fun g : child Sp L => within appends (f_impl (ch_field g))) (P1 ++ fp :: P2).
Hypothesis WG : Forall (fun g : child Sp L => within appends (f_impl (ch_field g))) G.

Definition child_match (slots slots' : list (child_slot L)) : Prop :=
  exists S1 K T S2, slots = S1 ++ CFlat (VStruct inner K) :: S2 /\ slots' = S1 ++ T ++ S2
    /\ List.length S1 = List.length P1 /\ child_vars G K T /\ NoDup (map fst K).

Lemma child_within (l : list (child Sp L)) slots n :
  Forall (fun g : child Sp L => within appends (f_impl (ch_field g))) l ->
  moves appends (child_branches (child_fn kebab) l slots n).
Proof.
  intros W. rewrite Forall_forall in W. apply adds_child_branches; [apply appends_onward|auto|].
  intros d I. apply adds_node_fn; [apply appends_onward|auto].
Qed.

Lemma child_branches_match slots slots' n c : child_match slots slots' ->
  sim c (fun x y => fst x = fst y /\ child_match (snd x) (snd y))
    (child_branches (child_fn kebab) (P1 ++ fp :: P2) slots n c)
    (child_branches (child_fn kebab) (P1 ++ G ++ P2) slots' n c).
Proof.
  intros (S1 & K & T & S2 & -> & -> & Ln & V & N).
  assert (H : forall l S1 c, List.length S1 = List.length l ->
    Forall (fun g : child Sp L => within appends (f_impl (ch_field g))) (l ++ fp :: P2) ->
    sim c (fun x y => fst x = fst y /\ exists S1' K T S2,
        snd x = S1' ++ CFlat (VStruct inner K) :: S2 /\ snd y = S1' ++ T ++ S2
        /\ List.length S1' = List.length l /\ child_vars G K T /\ NoDup (map fst K))
      (child_branches (child_fn kebab) (l ++ fp :: P2) (S1 ++ CFlat (VStruct inner K) :: S2) n c)
      (child_branches (child_fn kebab) (l ++ G ++ P2) (S1 ++ T ++ S2) n c)); [|now apply H].
  clear S1 Ln c. induction l as [|p l IH]; intros [|sl S1] c Ln W; try discriminate.
  - cbn [app child_branches]. unfold d_bind. rewrite Hi. unfold on_self, d_map, d_bind.
    pose proof (insert_flat_child G K T V WG [] P2 S2 n c N) as I. cbn [app] in I.
    pose proof (child_within P2 S2 n (Forall_inv_tail W)) as A2.
    destruct I as [[Ld (e & I)]|I].
    + right. split; [|rewrite I; eauto].
      destruct (insert_child kebab G K n c) as [c1 [[[] self]| |]]; cbn [fst] in Ld |- *; try assumption.
      specialize (A2 c1). unfold d_map, d_bind, d_ok.
      destruct (child_branches (child_fn kebab) P2 S2 n c1) as [c2 [[]| |]]; cbn [fst] in *;
        eapply loud_after; eauto.
    + left. destruct (insert_child kebab G K n c) as [c1 [[[] self]| |]].
      * destruct I as (K' & T' & -> & V' & M & ->). cbn. split; [reflexivity|]. cbn.
        split; [reflexivity|]. exists [], K', T', S2. repeat split; auto. now rewrite M.
      * destruct I as (-> & -> & ->). cbn. unfold d_map, d_bind, d_ok.
        destruct (child_branches (child_fn kebab) P2 S2 n c) as [c1 [[t ss]| |]]; split; try reflexivity.
        cbn. split; [reflexivity|]. now exists [], K, T, ss.
      * rewrite I. split; reflexivity.
      * rewrite I. split; reflexivity.
  - injection Ln as Ln. cbn [app] in W. inversion W as [|? ? W1 W2]; subst. specialize (IH S1).
    assert (J : forall sl c, sim c (fun x y => fst x = fst y /\ exists S1' K T S2,
        snd x = S1' ++ CFlat (VStruct inner K) :: S2 /\ snd y = S1' ++ T ++ S2
        /\ List.length S1' = List.length (p :: l) /\ child_vars G K T /\ NoDup (map fst K))
      (d_map (fun '(t, ss) => (t, sl :: ss))
         (child_branches (child_fn kebab) (l ++ fp :: P2) (S1 ++ CFlat (VStruct inner K) :: S2) n) c)
      (d_map (fun '(t, ss) => (t, sl :: ss))
         (child_branches (child_fn kebab) (l ++ G ++ P2) (S1 ++ T ++ S2) n) c)).
    { intros sl1 c1. eapply sim_map; [now apply IH|now apply child_within|].
      intros [t ss] [t' ss'] (E & S' & K' & T' & S2' & H).
      cbn in E, H |- *. destruct H as (-> & -> & Ls & V' & N'). split; [assumption|].
      exists (sl1 :: S'), K', T', S2'. cbn. repeat split; auto. }
    assert (Here : forall (sl1 : child_slot L) (c : context Sp), same_outcome (fun x y : bool * list (child_slot L) =>
        fst x = fst y /\ exists S1' K T S2,
        snd x = S1' ++ CFlat (VStruct inner K) :: S2 /\ snd y = S1' ++ T ++ S2
        /\ List.length S1' = List.length (p :: l) /\ child_vars G K T /\ NoDup (map fst K))
      (c, DOk (true, sl1 :: S1 ++ CFlat (VStruct inner K) :: S2))
      (c, DOk (true, sl1 :: S1 ++ T ++ S2))).
    { intros sl1 c1. split; [reflexivity|]. cbn. split; [reflexivity|].
      exists (sl1 :: S1), K, T, S2. cbn. repeat split; auto. }
    cbn [app child_branches]. destruct sl as [x|xs|x|b].
    + eapply sim_bind; [apply sim_same, same_refl|now apply (wi_insert_child _ _ W1)| |].
      * intros [[] x']; [apply adds_ok, appends_onward|].
        apply adds_map; [apply appends_onward|now apply child_within].
      * intros [taken x'] y c1 <-. destruct taken; [left; apply Here|apply J].
    + destruct (text_eqb _ (ch_name p)); [|apply J]. left.
      eapply same_map; [apply same_refl|]. intros x0 y <-.
      apply (proj2 (Here (CMulti (xs ++ [x0])) c)).
    + destruct (text_eqb _ (ch_name p)); [|apply J]. left. destruct x as [x|].
      * split; reflexivity.
      * eapply same_map; [apply same_refl|]. intros x0 y <-.
        apply (proj2 (Here (CNormal (Some x0)) c)).
    + destruct (text_eqb _ (ch_name p)); [|apply J]. left. cbv zeta. destruct b; apply Here.
Qed.

Variables s s' : struct Sp L.
Hypothesis Hs : st_children s = P1 ++ fp :: P2.
Hypothesis Hs' : st_children s' = P1 ++ G ++ P2.
Hypothesis Hv : st_var_children s = st_var_children s'.
Hypothesis Wv : forall f u, st_var_children s = Some (f, u) -> within appends (f_impl f).

Lemma var_child_eq : var_child_fn kebab s = var_child_fn kebab s'.
Proof. unfold var_child_fn. now rewrite Hv. Qed.

Lemma var_child_within f n : var_child_fn kebab s = Some f -> moves appends (f n).
Proof.
  unfold var_child_fn. destruct (st_var_children s) as [[g u]|] eqn:E; [|discriminate].
  intros H. injection H as <-. apply adds_node_fn; [apply appends_onward|]. eauto.
Qed.

Lemma child_loop_within : forall ns slots rest,
  moves appends (child_loop (child_fn kebab) (var_child_fn kebab s) (st_children s) slots rest ns).
Proof.
  pose proof (@appends_onward Sp) as O. pose proof var_child_within as Vw. revert Vw.
  generalize (var_child_fn kebab s). intros dv Vw.
  induction ns as [|n ns IH]; intros slots rest; cbn [child_loop]; [now apply adds_ok|].
  apply adds_bind; [assumption|rewrite Hs; now apply child_within|]. intros [[] slots']; [apply IH|].
  destruct dv as [f|]; (apply adds_bind; [assumption| |intros; apply IH]).
  - now apply Vw.
  - now apply adds_emit.
Qed.

Lemma child_loop_match : forall ns slots slots' rest c, child_match slots slots' ->
  sim c (fun x y => child_match (fst x) (fst y) /\ snd x = snd y)
    (child_loop (child_fn kebab) (var_child_fn kebab s) (st_children s) slots rest ns c)
    (child_loop (child_fn kebab) (var_child_fn kebab s') (st_children s') slots' rest ns c).
Proof.
  pose proof (@appends_onward Sp) as O.
  induction ns as [|n ns IH]; intros slots slots' rest c M; cbn [child_loop].
  - left. split; [reflexivity|]. cbn. auto.
  - eapply sim_bind; [rewrite Hs, Hs'; now apply child_branches_match|rewrite Hs; now apply child_within| |].
    + intros [[] slots1]; [apply child_loop_within|]. pose proof var_child_within as Vw.
      pose proof child_loop_within as Lw. destruct (var_child_fn kebab s) as [f|];
        (apply adds_bind; [assumption| |intros; apply Lw]); [now apply Vw|now apply adds_emit].
    + intros [t ss] [t' ss'] c1 [E M']. cbn in E, M'. subst t'. destruct t; [now apply IH|].
      pose proof child_loop_within as Lw. pose proof var_child_within as Vw.
      rewrite <- var_child_eq in *. destruct (var_child_fn kebab s) as [f|].
      * eapply sim_bind; [apply sim_same, same_refl|now apply Vw|intros; apply Lw|].
        intros x y c2 <-. now apply IH.
      * eapply sim_bind; [apply sim_same, same_refl|now apply adds_emit|intros; apply Lw|].
        intros x y c2 <-. now apply IH.
Qed.

Definition children_spliced (ys ys' : list (dval L)) : Prop :=
  exists Y1 K Y2, ys = Y1 ++ VStruct inner K :: Y2 /\ ys' = Y1 ++ map snd K ++ Y2
    /\ List.length Y1 = List.length P1 /\ map fst K = map (fun g => f_attr (ch_field g)) G.

Lemma children_match es ns c :
  Forall flat_child G -> NoDup (map (fun g => f_attr (ch_field g)) G) ->
  ti_default (f_impl (ch_field fp)) = VStruct inner (map child_empty G) ->
  sim c children_spliced (struct_children kebab s es ns c) (struct_children kebab s' es ns c).
Proof.
  intros HG N D. unfold struct_children, decode_children. eapply sim_bind.
  - apply child_loop_match. rewrite Hs, Hs', !map_app. cbn [map].
    exists (map child_start P1), (map child_empty G), (map child_start G), (map child_start P2).
    split; [unfold child_start at 2; now rewrite Hf, D|]. split; [reflexivity|].
    split; [now rewrite map_length|]. split; [now apply child_vars_start|].
    rewrite map_map. unfold child_empty. exact N.
  - apply child_loop_within.
  - pose proof (@appends_onward Sp) as O. intros [slots rest]. apply adds_map; [assumption|].
    apply adds_collect; [assumption|]. intros [d sl] _. cbn [child_finish].
    repeat match goal with
    | |- moves _ (d_ok _) => now apply adds_ok
    | |- moves _ (d_err _) => now apply adds_err
    | |- context [match ?x with _ => _ end] => destruct x
    end.
  - intros [slots rest] [slots' rest'] c1 [M E]. cbn in M, E. subst rest'. left.
    destruct M as (S1 & K & T & S2 & -> & -> & Ln & V & NK).
    destruct (child_vars_length _ _ _ V) as (LT & LK & MK).
    eapply same_map with (R := children_spliced).
    + rewrite Hs, Hs', !combine_app by congruence. cbn [combine]. rewrite !collect_app.
      destruct (d_collect (child_finish es) (combine P1 S1) c1) as [c2 [Y1| |]] eqn:EY;
        [|split; reflexivity|split; reflexivity].
      apply collect_length in EY. rewrite combine_length in EY.
      cbn [d_collect]. unfold d_map, d_bind at 1 2. cbn [child_finish]. unfold d_ok at 1.
      cbv beta iota. unfold d_bind. rewrite collect_app, (child_finish_vars es G K T V).
      unfold d_map, d_bind, d_ok.
      destruct (d_collect (child_finish es) (combine P2 S2) c2) as [c3 [Y2| |]]; split; try reflexivity.
      cbn. exists Y1, K, Y2. repeat split; auto. rewrite EY. lia.
    + intros ys ys' (Y1 & K' & Y2 & -> & -> & L1 & M'). rewrite var_child_eq.
      eexists Y1, K', (Y2 ++ _). rewrite <- !app_assoc. cbn. rewrite <- ?app_assoc. repeat split; auto.
Qed.

End Children.

(** ** Structs *)

Section Structs.
Context {Sp L : Type} (kebab : text -> text).

Lemma splice_combine (A1 A2 names : list access) (fa : access) inner (W1 W2 : list (dval L)) K :
  List.length A1 = List.length W1 -> map fst K = names ->
  combine (A1 ++ fa :: A2) (W1 ++ VStruct inner K :: W2)
    = combine A1 W1 ++ (fa, VStruct inner K) :: combine A2 W2
  /\ combine (A1 ++ names ++ A2) (W1 ++ map snd K ++ W2) = combine A1 W1 ++ K ++ combine A2 W2.
Proof.
  intros H <-. rewrite !combine_app by (rewrite ?map_length; auto). split; [reflexivity|].
  do 2 f_equal. clear. induction K as [|[a x] K IH]; cbn; congruence.
Qed.

(** The tables of two structs, other than those for properties and children. *)
Record same_rest (s s' : struct Sp L) : Prop := SameRest {
  sr_ident : st_ident s = st_ident s';
  sr_spans : st_spans s = st_spans s';
  sr_node_names : st_node_names s = st_node_names s';
  sr_type_names : st_type_names s = st_type_names s';
  sr_arguments : st_arguments s = st_arguments s';
  sr_var_args : st_var_args s = st_var_args s';
  sr_var_props : st_var_props s = st_var_props s';
  sr_var_children : st_var_children s = st_var_children s';
  sr_extra : st_extra s = st_extra s';
}.

Lemma same_self {A} (P : A -> Prop) (r : context Sp * dout Sp A) :
  (forall c' x, r = (c', DOk x) -> P x) -> same_outcome (fun x y => x = y /\ P x) r r.
Proof. intros H. split; [reflexivity|]. destruct r as [c' [x| |]]; cbn; eauto. Qed.

Lemma specials_match (s s' : struct Sp L) n c : same_rest s s' ->
  same_outcome (fun x y => x = y /\ List.length x
      = List.length (st_spans s ++ st_node_names s ++ map fst (st_type_names s)))
    (decode_specials s n c) (decode_specials s' n c).
Proof.
  intros R. replace (decode_specials s' n c) with (decode_specials s n c).
  - apply same_self. intros c' x H. apply decode_specials_ok in H. destruct H as (c0 & H & _).
    now apply special_length in H.
  - unfold decode_specials.
    now rewrite (sr_spans _ _ R), (sr_node_names _ _ R), (sr_type_names _ _ R).
Qed.

Lemma args_match (s s' : struct Sp L) n c : same_rest s s' ->
  same_outcome (fun x y => x = y /\ List.length x
      = List.length (map ar_field (st_arguments s) ++ map fst (lone (st_var_args s))))
    (decode_args s n c) (decode_args s' n c).
Proof.
  intros R. replace (decode_args s' n c) with (decode_args s n c).
  - apply same_self. intros c' x H. now apply decode_args_ok, args_length in H.
  - unfold decode_args. now rewrite (sr_arguments _ _ R), (sr_var_args _ _ R).
Qed.

Lemma lone_match {A B} (o : option (A * B)) :
  match o with Some (f, _) => [f] | None => [] end = map fst (lone o).
Proof. destruct o as [[]|]; reflexivity. Qed.

Variables (inner : text) (fl : field Sp L).

Definition splice (v v' : dval L) : Prop :=
  exists ident before within after,
    v = VStruct ident (before ++ (f_attr fl, VStruct inner within) :: after)
    /\ v' = VStruct ident (before ++ within ++ after).

Lemma struct_splice (s s' : struct Sp L) W1 W2 K A1 A2 names :
  st_ident s = st_ident s' ->
  map f_attr (all_fields s) = A1 ++ f_attr fl :: A2 ->
  map f_attr (all_fields s') = A1 ++ names ++ A2 ->
  List.length A1 = List.length W1 -> map fst K = names ->
  splice (struct_val true s (W1 ++ VStruct inner K :: W2))
         (struct_val true s' (W1 ++ map snd K ++ W2)).
Proof.
  intros Ei E E' Ln M. unfold struct_val. rewrite E, E', Ei.
  destruct (splice_combine A1 A2 names (f_attr fl) inner W1 W2 K Ln M) as [-> ->].
  exists (st_ident s'), (combine A1 W1), K, (combine A2 W2). split; reflexivity.
Qed.

(** *** Properties *)

Lemma node_props_match (s s' : struct Sp L) P1 G P2 fp n c :
  same_rest s s' -> st_children s = st_children s' ->
  st_properties s = P1 ++ fp :: P2 -> st_properties s' = P1 ++ G ++ P2 ->
  pr_field fp = fl -> pr_flatten fp = true ->
  (forall K k v, ti_insert_property (f_impl fl) (VStruct inner K) k v
     = on_self (fun fs => insert_property G fs k v) (VStruct inner K)) ->
  Forall flat_prop G -> NoDup (map (fun g => f_attr (pr_field g)) G) ->
  ti_default (f_impl fl) = VStruct inner (map (fun g => (f_attr (pr_field g), VNone)) G) ->
  same_outcome splice (struct_node kebab true s n c) (struct_node kebab true s' n c).
Proof.
  intros R Ec Es Es' Ef Hf Hi HG N D. unfold struct_node.
  eapply same_bind; [now apply specials_match|]. intros ws ws' c1 [<- L1].
  eapply same_bind; [now apply args_match|]. intros xs xs' c2 [<- L2].
  eapply same_bind.
  { eapply (props_match P1 G P2 fp inner); eauto.
    - subst fl. exact Hi.
    - apply (sr_var_props _ _ R).
    - subst fl. exact D. }
  intros ys ys' c3 (Y1 & K & Y2 & -> & -> & LY & MK).
  eapply same_bind.
  { replace (struct_children kebab s' (Some (s_span n)) (node_children (s_value n)) c3)
      with (struct_children kebab s (Some (s_span n)) (node_children (s_value n)) c3);
      [apply same_refl|]. unfold struct_children, decode_children, var_child_fn.
    now rewrite Ec, (sr_var_children _ _ R). }
  intros zs zs' c4 <-. split; [reflexivity|]. cbn [snd d_ok].
  replace (assign_extra s') with (assign_extra s) by (unfold assign_extra; now rewrite (sr_extra _ _ R)).
  replace (ws ++ xs ++ (Y1 ++ VStruct inner K :: Y2) ++ zs ++ assign_extra s)
    with ((ws ++ xs ++ Y1) ++ VStruct inner K :: Y2 ++ zs ++ assign_extra s)
    by (rewrite <- !app_assoc; reflexivity).
  replace (ws ++ xs ++ (Y1 ++ map snd K ++ Y2) ++ zs ++ assign_extra s)
    with ((ws ++ xs ++ Y1) ++ map snd K ++ Y2 ++ zs ++ assign_extra s)
    by (rewrite <- !app_assoc; reflexivity).
  eapply struct_splice with
    (A1 := map f_attr (st_spans s ++ st_node_names s ++ map fst (st_type_names s)
       ++ map ar_field (st_arguments s) ++ map fst (lone (st_var_args s)) ++ map pr_field P1));
    [apply (sr_ident _ _ R)| | | |exact MK].
  - unfold all_fields. rewrite !lone_match, Es. rewrite !map_app. cbn [map]. rewrite Ef.
    rewrite <- !app_assoc. cbn [app]. reflexivity.
  - unfold all_fields. rewrite !lone_match, Es'.
    rewrite <- (sr_spans _ _ R), <- (sr_node_names _ _ R), <- (sr_type_names _ _ R),
      <- (sr_arguments _ _ R), <- (sr_var_args _ _ R), <- (sr_var_props _ _ R),
      <- (sr_var_children _ _ R), <- (sr_extra _ _ R), <- Ec.
    rewrite !map_app. rewrite <- !app_assoc. rewrite (map_map pr_field f_attr G). reflexivity.
  - rewrite map_length. rewrite !app_length in *. rewrite !map_length in *. lia.
Qed.

(** *** Children *)

Section Children.
Variables (s s' : struct Sp L) (P1 G P2 : list (child Sp L)) (fp : child Sp L).
Hypothesis R : same_rest s s'.
Hypothesis Ep : st_properties s = st_properties s'.
Hypothesis Es : st_children s = P1 ++ fp :: P2.
Hypothesis Es' : st_children s' = P1 ++ G ++ P2.
Hypothesis Ef : ch_field fp = fl.
Hypothesis Hf : ch_mode fp = CmFlatten.
Hypothesis Hi : forall K n, ti_insert_child (f_impl fl) (VStruct inner K) n
     = on_self (fun fs => insert_child kebab G fs n) (VStruct inner K).
Hypothesis HG : Forall flat_child G.
Hypothesis N : NoDup (map (fun g => f_attr (ch_field g)) G).
Hypothesis D : ti_default (f_impl fl) = VStruct inner (map child_empty G).
Hypothesis W : within_struct appends s.
Hypothesis W' : within_struct appends s'.

Lemma children_sim es ns c :
  sim c (children_spliced P1 G inner) (struct_children kebab s es ns c)
    (struct_children kebab s' es ns c).
Proof.
  pose proof (within_parts appends s W) as (_ & _ & _ & _ & _ & Wc & Wv).
  pose proof (within_parts appends s' W') as (_ & _ & _ & _ & _ & Wc' & _).
  apply (children_match kebab P1 G P2 fp inner); auto.
  - subst fl. exact Hi.
  - apply Forall_forall. rewrite <- Es. exact Wc.
  - apply Forall_forall. intros d I. apply Wc'. rewrite Es'. apply in_or_app. right.
    apply in_or_app. now left.
  - apply (sr_var_children _ _ R).
  - subst fl. exact D.
Qed.

Lemma extra_same : assign_extra s' = assign_extra s.
Proof. unfold assign_extra. now rewrite (sr_extra _ _ R). Qed.

Lemma props_same n c : decode_props s n c = decode_props s' n c.
Proof.
  unfold decode_props, d_bind. rewrite Ep, (sr_var_props _ _ R).
  assert (E : forall kvs slots rest c, prop_loop s slots rest kvs c = prop_loop s' slots rest kvs c).
  { induction kvs as [|[k v] kvs IH]; intros slots rest c0; cbn [prop_loop]; [reflexivity|].
    unfold d_bind. rewrite Ep, (sr_var_props _ _ R).
    destruct (prop_branches _ _ _ _ c0) as [c3 [[[] ss]| |]]; try reflexivity; [apply IH|].
    destruct (st_var_props s') as [[f m]|]; [|reflexivity].
    destruct (d_convert _ _ c3) as [c5 [y| |]]; try reflexivity.
    destruct (decode_value _ _ _ _ c5) as [c6 [z| |]]; try reflexivity. apply IH. }
  now rewrite E.
Qed.

Definition before_attrs : list access :=
  map f_attr (st_spans s ++ st_node_names s ++ map fst (st_type_names s)
    ++ map ar_field (st_arguments s) ++ map fst (lone (st_var_args s))
    ++ map pr_field (st_properties s) ++ map fst (lone (st_var_props s)) ++ map ch_field P1).
Definition after_attrs : list access :=
  map f_attr (map ch_field P2 ++ map fst (lone (st_var_children s)) ++ map fst (st_extra s)).

Lemma fields_outer : map f_attr (all_fields s) = before_attrs ++ f_attr fl :: after_attrs.
Proof.
  unfold all_fields, before_attrs, after_attrs. rewrite !lone_match, Es. rewrite !map_app. cbn [map].
  rewrite Ef. rewrite <- !app_assoc. cbn [app]. reflexivity.
Qed.

Lemma fields_inlined : map f_attr (all_fields s')
  = before_attrs ++ map (fun g => f_attr (ch_field g)) G ++ after_attrs.
Proof.
  unfold all_fields, before_attrs, after_attrs. rewrite !lone_match, Es'.
  rewrite <- (sr_spans _ _ R), <- (sr_node_names _ _ R), <- (sr_type_names _ _ R),
    <- (sr_arguments _ _ R), <- (sr_var_args _ _ R), <- (sr_var_props _ _ R),
    <- (sr_var_children _ _ R), <- (sr_extra _ _ R), <- Ep.
  rewrite !map_app. rewrite <- !app_assoc. rewrite (map_map ch_field f_attr G). reflexivity.
Qed.

Lemma node_children_match n c :
  sim c splice (struct_node kebab true s n c) (struct_node kebab true s' n c).
Proof.
  pose proof (@appends_onward Sp) as O. unfold struct_node.
  eapply sim_bind; [apply sim_same; now apply specials_match|now apply adds_specials| |].
  { intros. repeat (apply adds_bind; [assumption|first [now apply adds_args|now apply adds_props
      |now apply adds_struct_children]|intros]). now apply adds_ok. }
  intros ws ws' c1 [<- L1].
  eapply sim_bind; [apply sim_same; now apply args_match|now apply adds_args| |].
  { intros. repeat (apply adds_bind; [assumption|first [now apply adds_props
      |now apply adds_struct_children]|intros]). now apply adds_ok. }
  intros xs xs' c2 [<- L2].
  eapply sim_bind with (R := fun x y => x = y /\ List.length x
      = List.length (map pr_field (st_properties s) ++ map fst (lone (st_var_props s))));
    [|now apply adds_props| |].
  { apply sim_same. rewrite <- props_same. apply same_self. intros c' x H.
    now apply decode_props_length in H. }
  { intros. repeat (apply adds_bind; [assumption|now apply adds_struct_children|intros]).
    now apply adds_ok. }
  intros ys ys' c3 [<- L3].
  eapply sim_bind; [apply children_sim|now apply adds_struct_children|intros; now apply adds_ok|].
  intros zs zs' c4 (Y1 & K & Y2 & -> & -> & LY & MK). left. split; [reflexivity|]. cbn [snd d_ok].
  rewrite extra_same.
  replace (ws ++ xs ++ ys ++ (Y1 ++ VStruct inner K :: Y2) ++ assign_extra s)
    with ((ws ++ xs ++ ys ++ Y1) ++ VStruct inner K :: Y2 ++ assign_extra s)
    by (rewrite <- !app_assoc; reflexivity).
  replace (ws ++ xs ++ ys ++ (Y1 ++ map snd K ++ Y2) ++ assign_extra s)
    with ((ws ++ xs ++ ys ++ Y1) ++ map snd K ++ Y2 ++ assign_extra s)
    by (rewrite <- !app_assoc; reflexivity).
  eapply struct_splice; [apply (sr_ident _ _ R)|apply fields_outer|apply fields_inlined| |exact MK].
  unfold before_attrs. rewrite map_length. rewrite !app_length in *. rewrite !map_length in *. lia.
Qed.

Lemma document_children_match ns c :
  st_spans s = [] -> st_node_names s = [] -> st_type_names s = [] ->
  st_arguments s = [] -> st_var_args s = None -> st_properties s = [] -> st_var_props s = None ->
  sim c splice (struct_document kebab true s ns c) (struct_document kebab true s' ns c).
Proof.
  pose proof (@appends_onward Sp) as O. intros E1 E2 E3 E4 E5 E6 E7. unfold struct_document.
  eapply sim_bind; [apply children_sim|now apply adds_struct_children|intros; now apply adds_ok|].
  intros zs zs' c4 (Y1 & K & Y2 & -> & -> & LY & MK). left. split; [reflexivity|]. cbn [snd d_ok].
  rewrite extra_same, <- !app_assoc. cbn [app].
  eapply struct_splice; [apply (sr_ident _ _ R)|apply fields_outer|apply fields_inlined| |exact MK].
  unfold before_attrs. rewrite E1, E2, E3, E4, E5, E6, E7. cbn [map app lone fst]. now rewrite !map_length.
Qed.

End Children.
End Structs.

(** ** The source *)

Section Source.
Context {Sp L : Type} (kebab : text -> text).
Implicit Types (fs gs pre post mid : list (src_field Sp L)) (g fl : src_field Sp L).

Definition fixed {A} (X : nat * src_field Sp L -> list A) : Prop :=
  forall i g, sf_name g <> None -> X (i, g) = X (0, g).

Lemma spread {A} (X : nat * src_field Sp L -> list A) pre mid post :
  fixed X -> Forall (fun g => sf_name g <> None) (pre ++ mid ++ post) ->
  flat_map X (numbered (pre ++ mid ++ post))
  = flat_map (fun g => X (0, g)) pre ++ flat_map (fun g => X (0, g)) mid
    ++ flat_map (fun g => X (0, g)) post.
Proof.
  intros F H. rewrite <- !flat_map_app. unfold numbered. generalize 0 at 1.
  induction H as [|g fs Hg H IH]; intros i; [reflexivity|].
  cbn [List.length seq combine flat_map]. rewrite IH. now rewrite (F i g Hg).
Qed.

Lemma nothing {A} (X : nat * src_field Sp L -> list A) mid :
  (forall g, In g mid -> X (0, g) = []) -> flat_map (fun g => X (0, g)) mid = [].
Proof.
  induction mid as [|g mid IH]; intros H; cbn; [reflexivity|].
  rewrite (H g) by now left. rewrite IH; [reflexivity|]. intros; apply H; now right.
Qed.

Lemma field_fixed i g : sf_name g <> None -> the_field (i, g) = the_field (0, g).
Proof. unfold the_field. cbn [snd fst]. now destruct (sf_name g). Qed.

Ltac fixed_tac := intros i g Hg; unfold spans_of, node_names_of, type_names_of, arguments_of, var_args_of,
  properties_of, var_props_of, children_of, var_children_of, extra_of, optional, boolean, decode_of,
  default_of, unwrap_of, mode_of, key_of; cbn [snd]; rewrite ?(field_fixed i g Hg); reflexivity.

Lemma spans_fixed : fixed spans_of. Proof. fixed_tac. Qed.
Lemma node_names_fixed : fixed node_names_of. Proof. fixed_tac. Qed.
Lemma type_names_fixed : fixed type_names_of. Proof. fixed_tac. Qed.
Lemma arguments_fixed : fixed arguments_of. Proof. fixed_tac. Qed.
Lemma var_args_fixed : fixed var_args_of. Proof. fixed_tac. Qed.
Lemma properties_fixed : fixed (properties_of kebab). Proof. fixed_tac. Qed.
Lemma var_props_fixed : fixed var_props_of. Proof. fixed_tac. Qed.
Lemma children_fixed : fixed (children_of kebab). Proof. fixed_tac. Qed.
Lemma var_children_fixed : fixed var_children_of. Proof. fixed_tac. Qed.
Lemma extra_fixed : fixed extra_of. Proof. fixed_tac. Qed.

Lemma lone_inj {A} (o o' : option A) : lone o = lone o' -> o = o'.
Proof. destruct o, o'; cbn; intros H; now inversion H. Qed.

(** A field that is in no table but the one for properties, or the one for children. *)
Definition only_property g : Prop :=
  match mode_of (0, g) with Some (FmProperty _) | Some (FmFlatten false true) => True | _ => False end.
Definition only_child g : Prop :=
  match mode_of (0, g) with Some FmChild | Some (FmFlatten true false) => True | _ => False end.

Lemma rest_empty g : only_property g \/ only_child g ->
  spans_of (0, g) = [] /\ node_names_of (0, g) = [] /\ type_names_of (0, g) = []
  /\ arguments_of (0, g) = [] /\ var_args_of (0, g) = [] /\ var_props_of (0, g) = []
  /\ var_children_of (0, g) = [] /\ extra_of (0, g) = [].
Proof.
  unfold only_property, only_child, spans_of, node_names_of, type_names_of, arguments_of, var_args_of,
    var_props_of, var_children_of, extra_of.
  destruct (mode_of (0, g)) as [[]|]; intros [H|H]; try contradiction; repeat split.
Qed.

Lemma rest_same ident pre fl gs post s s' :
  filed kebab ident (pre ++ [fl] ++ post) s -> filed kebab ident (pre ++ gs ++ post) s' ->
  Forall (fun g => sf_name g <> None) (pre ++ [fl] ++ post) ->
  Forall (fun g => sf_name g <> None) (pre ++ gs ++ post) ->
  (forall g, In g (fl :: gs) -> only_property g \/ only_child g) ->
  same_rest s s'.
Proof.
  intros F F' H H' O.
  assert (Go : forall A (X : nat * src_field Sp L -> list A), fixed X ->
    (forall g, In g (fl :: gs) -> X (0, g) = []) ->
    flat_map X (numbered (pre ++ [fl] ++ post)) = flat_map X (numbered (pre ++ gs ++ post))).
  { intros A X Fx N. rewrite !spread by assumption.
    rewrite (nothing X [fl]), (nothing X gs); [reflexivity|intros; apply N; now right|].
    intros g [<- |[]]. apply N. now left. }
  split.
  - now rewrite (fi_ident _ _ _ _ F), (fi_ident _ _ _ _ F').
  - rewrite (fi_spans _ _ _ _ F), (fi_spans _ _ _ _ F').
    apply Go; [apply spans_fixed|intros g I; apply (rest_empty g (O g I))].
  - rewrite (fi_node_names _ _ _ _ F), (fi_node_names _ _ _ _ F').
    apply Go; [apply node_names_fixed|intros g I; apply (rest_empty g (O g I))].
  - rewrite (fi_type_names _ _ _ _ F), (fi_type_names _ _ _ _ F').
    apply Go; [apply type_names_fixed|intros g I; apply (rest_empty g (O g I))].
  - rewrite (fi_arguments _ _ _ _ F), (fi_arguments _ _ _ _ F').
    apply Go; [apply arguments_fixed|intros g I; apply (rest_empty g (O g I))].
  - apply lone_inj. rewrite (fi_var_args _ _ _ _ F), (fi_var_args _ _ _ _ F').
    apply Go; [apply var_args_fixed|intros g I; apply (rest_empty g (O g I))].
  - apply lone_inj. rewrite (fi_var_props _ _ _ _ F), (fi_var_props _ _ _ _ F').
    apply Go; [apply var_props_fixed|intros g I; apply (rest_empty g (O g I))].
  - apply lone_inj. rewrite (fi_var_children _ _ _ _ F), (fi_var_children _ _ _ _ F').
    apply Go; [apply var_children_fixed|intros g I; apply (rest_empty g (O g I))].
  - rewrite (fi_extra _ _ _ _ F), (fi_extra _ _ _ _ F').
    apply Go; [apply extra_fixed|intros g I; apply (rest_empty g (O g I))].
Qed.

Lemma option_not_bool t : is_option t = true -> is_bool t = false.
Proof.
  destruct t as [[] [] [|[t []] []]|]; unfold is_option, is_bool; try discriminate; try reflexivity.
  destruct (text_eqb_reflect t (str "Option")) as [->|]; [reflexivity|discriminate].
Qed.

Lemma emit_insert (s : struct Sp L) d fc fp :
  emit_struct kebab true s = Some d ->
  dr_insert_child d = Some fc -> dr_insert_property d = Some fp ->
  (forall x n, fc x n = on_self (fun vs => insert_child kebab (st_children s) vs n) x)
  /\ (forall x k v, fp x k v = on_self (fun vs => insert_property (st_properties s) vs k v) x).
Proof.
  unfold emit_struct. cbn [orb andb]. destruct (unwraps_compile kebab s); [|discriminate].
  intros H. injection H as <-. cbn [dr_insert_child dr_insert_property].
  destruct (partial_compatible s); [|discriminate]. intros H1 H2. injection H1 as <-.
  injection H2 as <-. split; reflexivity.
Qed.

(** Named fields have different attributes. *)
Lemma attrs_distinct gs : names_given gs -> NoDup (map (fun g => f_attr (the_field (0, g))) gs).
Proof.
  intros [H N]. revert N. induction H as [|g gs Hg H IH]; cbn; intros N; constructor; inversion N; subst.
  - intros I. apply in_map_iff in I. destruct I as (g' & E & I).
    rewrite Forall_forall in H. specialize (H g' I). unfold the_field in E. cbn in E.
    destruct (sf_name g) as [a|] eqn:Ea, (sf_name g') as [b|] eqn:Eb; try congruence.
    injection E as <-. apply H2. apply in_map_iff. exists g'. split; [congruence|assumption].
  - now apply IH.
Qed.

(** What the inner struct has for tables. *)
Lemma inner_properties gs : Forall optional_property gs ->
  let G := flat_map (fun g => properties_of kebab (0, g)) gs in
  Forall flat_prop G /\ map (fun p => f_attr (pr_field p)) G = map (fun g => f_attr (the_field (0, g))) gs
  /\ map (fun p => (f_attr (pr_field p), VNone)) G = map empty_value gs.
Proof.
  induction 1 as [|g gs ((name & M) & O & D) H (IH1 & IH2 & IH3)]; cbn [flat_map map]; [auto|].
  unfold properties_of at 1 3 5. rewrite M. cbn [app map]. repeat split.
  - constructor; [|assumption]. repeat split; assumption.
  - now rewrite IH2.
  - rewrite IH3. unfold empty_value at 2. now rewrite (option_not_bool _ O).
Qed.

Lemma inner_children gs : Forall optional_child gs ->
  let G := flat_map (fun g => children_of kebab (0, g)) gs in
  Forall flat_child G /\ map (fun p => f_attr (ch_field p)) G = map (fun g => f_attr (the_field (0, g))) gs
  /\ map child_empty G = map empty_value gs.
Proof.
  induction 1 as [|g gs (M & K) H (IH1 & IH2 & IH3)]; cbn [flat_map map]; [auto|].
  unfold children_of at 1 3 5. rewrite M. cbn [app map]. repeat split.
  - constructor; [|assumption]. unfold flat_child. cbn. destruct K as [[O D]|[B U]].
    + right. unfold boolean, optional. cbn [snd]. rewrite (option_not_bool _ O), D.
      split; [now destruct (unwrap_of (0, g))|auto].
    + left. rewrite U. unfold boolean. cbn [snd]. now rewrite B.
  - now rewrite IH2.
  - rewrite IH3. unfold empty_value at 2, child_empty at 1. cbn [ch_mode ch_field].
    unfold boolean. cbn [snd]. destruct K as [[O D]|[B U]].
    + rewrite (option_not_bool _ O). now destruct (unwrap_of (0, g)).
    + now rewrite U, B.
Qed.


Section Both.
Variables (ident inner : text) (cont cont' icont : list (attr L)) (pre post gs : list (src_field Sp L))
  (fl : src_field Sp L) (d d' di : derived Sp L).
Hypothesis Hd : derives_struct kebab true ident cont (pre ++ fl :: post) d.
Hypothesis Hd' : derives_struct kebab true ident cont' (pre ++ gs ++ post) d'.
Hypothesis Hi : holds_struct kebab fl inner icont gs di.

Lemma both_structs : exists s s' si,
  struct_new kebab ident (pre ++ [fl] ++ post) = inl (s, [])
  /\ struct_new kebab ident (pre ++ gs ++ post) = inl (s', [])
  /\ filed kebab ident (pre ++ [fl] ++ post) s /\ filed kebab ident (pre ++ gs ++ post) s'
  /\ filed kebab inner ([] ++ gs ++ []) si
  /\ emit_struct kebab true s = Some d /\ emit_struct kebab true s' = Some d'
  /\ emit_struct kebab true si = Some di.
Proof.
  destruct Hd as (D & P & N), Hd' as (D' & P' & N'), (hs_derived _ _ _ _ _ _ Hi) as (Di & Pi & Ni).
  destruct (derived_struct _ _ _ _ _ _ D P N) as (s & S & E).
  destruct (derived_struct _ _ _ _ _ _ D' P' N') as (s' & S' & E').
  destruct (derived_struct _ _ _ _ _ _ Di Pi Ni) as (si & Si & Ei).
  exists s, s', si. cbn [app]. rewrite app_nil_r. repeat split; auto; eapply struct_new_filed; eauto.
Qed.

Lemma names1 : Forall (fun g => sf_name g <> None) (pre ++ [fl] ++ post).
Proof. destruct Hd as (_ & [[N _] _] & _). exact N. Qed.
Lemma names2 : Forall (fun g => sf_name g <> None) (pre ++ gs ++ post).
Proof. destruct Hd' as (_ & [[N _] _] & _). exact N. Qed.
Lemma names3 : names_given gs.
Proof. destruct (hs_derived _ _ _ _ _ _ Hi) as (_ & [N _] & _). exact N. Qed.
Lemma names4 : Forall (fun g => sf_name g <> None) ([] ++ gs ++ []).
Proof. cbn [app]. rewrite app_nil_r. apply names3. Qed.

Lemma flatten_properties n c :
  mode_of (0, fl) = Some (FmFlatten false true) -> Forall optional_property gs ->
  same_outcome (spliced inner fl) (dr_node d n c) (dr_node d' n c).
Proof.
  intros M O. destruct both_structs as (s & s' & si & S & S' & F & F' & Fi & E & E' & Ei).
  rewrite (emit_struct_node _ _ _ _ E), (emit_struct_node _ _ _ _ E').
  destruct (emit_insert _ _ _ _ Ei (hs_child _ _ _ _ _ _ Hi) (hs_property _ _ _ _ _ _ Hi)) as [_ Ip].
  destruct (inner_properties gs O) as (G1 & G2 & G3).
  assert (Op : forall g, In g (fl :: gs) -> only_property g \/ only_child g).
  { intros g [<- | I]; left; unfold only_property; [now rewrite M|].
    rewrite Forall_forall in O. destruct (O g I) as ((name & ->) & _). exact Logic.I. }
  pose proof (rest_same ident pre fl gs post s s' F F' names1 names2 Op) as R.
  eapply (node_props_match kebab inner (the_field (0, fl)) s s') with (fp := Prop_ (the_field (0, fl)) [] false DmNormal true None)
    (G := flat_map (fun g => properties_of kebab (0, g)) gs); auto.
  - rewrite (fi_children _ _ _ _ F), (fi_children _ _ _ _ F').
    rewrite (spread _ _ _ _ children_fixed names1), (spread _ _ _ _ children_fixed names2).
    rewrite (nothing (children_of kebab) gs), (nothing (children_of kebab) [fl]); [reflexivity| |].
    + intros g [<- | []]. unfold children_of. now rewrite M.
    + intros g I. rewrite Forall_forall in O. destruct (O g I) as ((name & Mg) & _).
      unfold children_of. now rewrite Mg.
  - rewrite (fi_properties _ _ _ _ F), (spread _ _ _ _ properties_fixed names1).
    cbn [flat_map app]. unfold properties_of at 2. rewrite M. cbn [app]. reflexivity.
  - rewrite (fi_properties _ _ _ _ F'), (spread _ _ _ _ properties_fixed names2). reflexivity.
  - intros K k v. cbn [f_impl the_field snd]. rewrite Ip, (fi_properties _ _ _ _ Fi).
    rewrite (spread _ _ _ _ properties_fixed names4). cbn [flat_map app]. now rewrite app_nil_r.
  - rewrite G2. now apply attrs_distinct, names3.
  - rewrite G3. apply (hs_default _ _ _ _ _ _ Hi).
Qed.

Section Children.
Hypothesis M : mode_of (0, fl) = Some (FmFlatten true false).
Hypothesis O : Forall optional_child gs.
Hypothesis W : Forall (fun g => within appends (sf_impl g)) (pre ++ fl :: gs ++ post).

Lemma flatten_children_both :
  (forall n c, sim c (spliced inner fl) (dr_node d n c) (dr_node d' n c))
  /\ (forall f f', dr_children d = Some f -> dr_children d' = Some f' ->
      forall ns c, sim c (spliced inner fl) (f ns c) (f' ns c)).
Proof.
  destruct both_structs as (s & s' & si & S & S' & F & F' & Fi & E & E' & Ei).
  rewrite (emit_struct_node _ _ _ _ E), (emit_struct_node _ _ _ _ E').
  destruct (emit_insert _ _ _ _ Ei (hs_child _ _ _ _ _ _ Hi) (hs_property _ _ _ _ _ _ Hi)) as [Ic _].
  destruct (inner_children gs O) as (G1 & G2 & G3).
  assert (Op : forall g, In g (fl :: gs) -> only_property g \/ only_child g).
  { intros g [<- | I]; right; unfold only_child; [now rewrite M|].
    rewrite Forall_forall in O. destruct (O g I) as (-> & _). exact Logic.I. }
  pose proof (rest_same ident pre fl gs post s s' F F' names1 names2 Op) as R.
  assert (Ep : st_properties s = st_properties s').
  { rewrite (fi_properties _ _ _ _ F), (fi_properties _ _ _ _ F').
    rewrite (spread _ _ _ _ properties_fixed names1), (spread _ _ _ _ properties_fixed names2).
    rewrite (nothing (properties_of kebab) gs), (nothing (properties_of kebab) [fl]); [reflexivity| |].
    + intros g [<- | []]. unfold properties_of. now rewrite M.
    + intros g I. rewrite Forall_forall in O. destruct (O g I) as (Mg & _).
      unfold properties_of. now rewrite Mg. }
  set (P1 := flat_map (fun g => children_of kebab (0, g)) pre).
  set (P2 := flat_map (fun g => children_of kebab (0, g)) post).
  set (G := flat_map (fun g => children_of kebab (0, g)) gs) in *.
  set (fp := Child (the_field (0, fl)) [] false CmFlatten None None).
  assert (Es : st_children s = P1 ++ fp :: P2).
  { rewrite (fi_children _ _ _ _ F), (spread _ _ _ _ children_fixed names1).
    cbn [flat_map app]. unfold children_of at 2. rewrite M. reflexivity. }
  assert (Es' : st_children s' = P1 ++ G ++ P2).
  { rewrite (fi_children _ _ _ _ F'), (spread _ _ _ _ children_fixed names2). reflexivity. }
  assert (Hc : forall K n, ti_insert_child (f_impl (the_field (0, fl))) (VStruct inner K) n
      = on_self (fun vs => insert_child kebab G vs n) (VStruct inner K)).
  { intros K n. cbn [f_impl the_field snd]. rewrite Ic, (fi_children _ _ _ _ Fi).
    rewrite (spread _ _ _ _ children_fixed names4). cbn [flat_map app]. now rewrite app_nil_r. }
  assert (N : NoDup (map (fun h : child Sp L => f_attr (ch_field h)) G)).
  { rewrite G2. now apply attrs_distinct, names3. }
  assert (D : ti_default (f_impl (the_field (0, fl))) = VStruct inner (map child_empty G)).
  { rewrite G3. apply (hs_default _ _ _ _ _ _ Hi). }
  apply Forall_app in W. destruct W as [W1 W2]. inversion W2 as [|? ? W3 W4]; subst.
  apply Forall_app in W4. destruct W4 as [W4 W5].
  assert (Ws : within_struct appends s).
  { eapply struct_new_within; [exact S|]. apply Forall_app. split; [assumption|]. cbn [app].
    constructor; assumption. }
  assert (Ws' : within_struct appends s').
  { eapply struct_new_within; [exact S'|]. rewrite !Forall_app. auto. }
  split.
  - intros n c. apply (node_children_match kebab inner (the_field (0, fl)) s s' P1 G P2 fp); auto.
  - intros f f' H H' ns c.
    destruct (emit_struct_children _ _ _ _ _ E H) as (-> & A & B & C1 & C2 & C3).
    destruct (emit_struct_children _ _ _ _ _ E' H') as (-> & _).
    destruct (has_arguments _ _ _ _ _ S A) as [A1 A2].
    destruct (has_properties _ _ _ _ _ S B) as [B1 B2].
    apply (document_children_match kebab inner (the_field (0, fl)) s s' P1 G P2 fp); auto.
Qed.

Lemma flatten_children n c : sim c (spliced inner fl) (dr_node d n c) (dr_node d' n c).
Proof. apply flatten_children_both. Qed.

Lemma flatten_document f f' ns c : dr_children d = Some f -> dr_children d' = Some f' ->
  sim c (spliced inner fl) (f ns c) (f' ns c).
Proof. intros H H'. now apply flatten_children_both. Qed.

End Children.
End Both.
End Source.

(** What the user sees of it. *)
Lemma sim_parse {Sp L} (R : dval L -> dval L -> Prop) (f f' : children_impl Sp (dval L)) :
  (forall ns c, sim c R (f ns c) (f' ns c)) -> forall ast,
  match parse ast f, parse ast f' with
  | Value_of v, Value_of v' => R v v'
  | Decode_errors es, Decode_errors es' => True
  | Parse_errors es, Parse_errors es' => es = es'
  | Panic_of, Panic_of => True
  | Panic_of, Decode_errors _ => True
  | _, _ => False
  end.
Proof.
  intros H [doc|errs|]; cbn [parse parse_with_context]; auto.
  unfold parse, parse_with_context. specialize (H doc context_new).
  destruct (f doc context_new) as [c o], (f' doc context_new) as [c' o']. destruct H as [[E H]|[Ld (c1 & e & H)]].
  - cbn in E. subst c'. destruct o, o'; cbn in H; try contradiction; auto.
    destruct (has_errors c); auto.
  - injection H as -> ->. destruct Ld as (es & N & Ec). cbn in Ec.
    destruct o; auto. unfold has_errors. rewrite Ec. destruct es; [congruence|]. exact I.
Qed.

Lemma flatten_parse {Sp L} kebab ident inner cont cont' icont pre post gs
    (fl : src_field Sp L) d d' di :
  derives_struct kebab true ident cont (pre ++ fl :: post) d ->
  derives_struct kebab true ident cont' (pre ++ gs ++ post) d' ->
  holds_struct kebab fl inner icont gs di ->
  mode_of (0, fl) = Some (FmFlatten true false) -> Forall optional_child gs ->
  Forall (fun g => within appends (sf_impl g)) (pre ++ fl :: gs ++ post) ->
  forall f f', dr_children d = Some f -> dr_children d' = Some f' -> forall ast,
  match parse ast f, parse ast f' with
  | Value_of v, Value_of v' => spliced inner fl v v'
  | Decode_errors _, Decode_errors _ => True
  | Parse_errors es, Parse_errors es' => es = es'
  | Panic_of, (Panic_of | Decode_errors _) => True
  | _, _ => False
  end.
Proof.
  intros Hd Hd' Hi M O W f f' E E' ast.
  apply (sim_parse (spliced inner fl) f f').
  intros ns c. eapply flatten_document; eauto.
Qed.
