(** What a derived struct does about absent and superfluous parts of a node. *)

From Coq Require Import NArith List Bool String Lia Arith.
From Verif Require Import Chars Ast Errors Kdl PropMap Decode Scalar DecodeSpec DecodeProps AstProps LibraryProps LexIdent
  DeriveDef Derive DeriveSpec DeriveProps FieldSpec FieldProps StructSpec StructProps HonestProps
  HandSpec HandProps Containers Chumsky Spans Grammar.
Import ListNotations.

(** A step of a list of steps. *)
Lemma in_turn_nth {Sp X Y} (R : list X -> X -> context Sp -> Y -> context Sp -> Prop) :
  forall before xs c ys c', in_turn R before xs c ys c' ->
  forall i x, nth_error xs i = Some x ->
  exists y c1 c2, nth_error ys i = Some y /\ R (before ++ firstn i xs) x c1 y c2.
Proof.
  intros before xs c ys c' H. induction H as [|before x xs c c1 c2 y ys H1 H2 IH]; intros i x' N.
  - now destruct i.
  - destruct i as [|i].
    + injection N as <-. exists y, c, c1. cbn [firstn]. now rewrite app_nil_r.
    + destruct (IH i x' N) as (y' & d1 & d2 & H & K).
      exists y', d1, d2. cbn [firstn]. rewrite <- app_assoc in K. auto.
Qed.

Lemma nth_skipn {A} (l : list A) n i : nth_error (skipn n l) i = nth_error l (n + i).
Proof.
  revert l. induction n as [|n IH]; intros l; [reflexivity|].
  destruct l; [now destruct i|]. apply IH.
Qed.

Lemma increasing_names {Sp} (kvs : list (spanned text Sp * value Sp)) :
  increasing kvs -> NoDup (names_of kvs).
Proof.
  induction 1 as [|kv l I IH H]; cbn; constructor; [|exact IH].
  intros J. apply in_map_iff in J. destruct J as (kv' & E & J). specialize (H kv' J).
  change (text_compare (s_value (fst kv)) (s_value (fst kv')) = Lt) in H. rewrite E in H.
  now rewrite text_compare_refl in H.
Qed.

(** ** Arguments *)

Section Parts.
Context {Sp L : Type}.

(** What each argument field holds. *)
Lemma args_field (fields : list (arg Sp L)) var given c out c' :
  args_right fields var given c out c' ->
  forall i f, nth_error fields i = Some f ->
  exists x, nth_error out i = Some x /\
  match nth_error given i with
  | Some a => exists c1 c2,
      decode_value (ar_decode f) (ar_option f) (f_impl (ar_field f)) a c1 = (c2, DOk x)
  | None => absent (ar_default f) (ar_kind_option f) x
  end.
Proof.
  intros (xs & ys & c1 & H1 & H2 & H3) i f Nf.
  assert (Lf : i < List.length fields) by (apply nth_error_Some; congruence).
  assert (L1 : List.length xs = Nat.min (List.length fields) (List.length given))
    by (apply in_turn_length in H1; rewrite combine_length in H1; congruence).
  assert (No : forall x, nth_error (xs ++ ys) i = Some x -> nth_error out i = Some x).
  { intros x Nx. destruct var as [[g m]|].
    - destruct H3 as (zs & _ & ->). rewrite app_assoc, nth_error_app1; [exact Nx|].
      apply nth_error_Some. congruence.
    - destruct H3 as (_ & _ & ->). exact Nx. }
  destruct (nth_error given i) as [a|] eqn:Ng.
  - assert (Nc : nth_error (combine fields given) i = Some (f, a)).
    { clear - Nf Ng. revert given i Nf Ng. induction fields as [|g fields IH];
        intros [|b given] [|i] Nf Ng; try discriminate; cbn in *; [congruence|auto]. }
    destruct (in_turn_nth _ _ _ _ _ _ H1 i _ Nc) as (y & d1 & d2 & Ny & G).
    exists y. split; [|exists d1, d2; exact G]. apply No. rewrite nth_error_app1; [exact Ny|].
    apply nth_error_Some. congruence.
  - apply nth_error_None in Ng.
    destruct (Forall2_nth _ _ _ H2 (i - List.length given) f) as (y & Ny & Ab).
    { rewrite nth_skipn. replace (List.length given + (i - List.length given)) with i by lia.
      exact Nf. }
    exists y. split; [|exact Ab]. apply No. rewrite nth_error_app2 by lia.
    replace (i - List.length xs) with (i - List.length given) by lia. exact Ny.
Qed.

(** ** Properties *)

Lemma props_field (ps : list (prop Sp L)) var kvs c out c' :
  NoDup (map pr_name ps) -> NoDup (names_of kvs) -> props_right ps var kvs c out c' ->
  forall i p, nth_error ps i = Some p ->
  exists x, nth_error out i = Some x /\
  ((exists k a c1 c2, In (k, a) kvs /\ s_value k = pr_name p
      /\ decode_value (pr_decode p) (pr_option p) (f_impl (pr_field p)) a c1 = (c2, DOk x))
   \/ (~ In (pr_name p) (names_of kvs) /\ absent (pr_default p) (pr_option p) x)).
Proof.
  intros NP NK (ts & xs & H1 & H2 & ->) i p Np.
  destruct (Forall2_nth _ _ _ H2 i p Np) as (y & Ny & Hy).
  exists y. split; [rewrite nth_error_app1; [exact Ny|apply nth_error_Some; congruence]|].
  inversion Hy as [j kv x Nj Ek Nt|x Ab Ax]; subst; [left|right; auto].
  destruct (in_turn_nth _ _ _ _ _ _ H1 j _ Nj) as (t & d1 & d2 & Nt' & G).
  assert (t = To_field y) by congruence. subst t.
  inversion G as [k a q cc x cc' Iq En Gx|]; subst. cbn [fst] in *.
  exists k, a, d1, d2. split; [eapply nth_error_In, Nj|]. split; [assumption|].
  assert (q = p); [|now subst].
  apply In_nth_error in Iq. destruct Iq as [iq Nq].
  assert (iq = i); [|congruence].
  apply (nodup_nth _ NP iq i (pr_name p)); [|now apply map_nth_error].
  rewrite <- Ek, <- En. now apply map_nth_error.
Qed.

Lemma props_unknown (ps : list (prop Sp L)) kvs c out c' k a :
  props_right ps None kvs c out c' -> In (k, a) kvs -> In (s_value k) (map pr_name ps).
Proof.
  intros (ts & xs & H1 & _) I. apply In_nth_error in I. destruct I as [i N].
  destruct (in_turn_nth _ _ _ _ _ _ H1 i _ N) as (t & d1 & d2 & _ & G).
  inversion G as [k0 a0 q cc x cc' Iq En Gx|]; subst; [|discriminate]. rewrite <- En. now apply in_map.
Qed.

(** ** Children *)

Lemma values_for_none name : forall (ns : list (snode Sp)) (bs : list (became L)),
  ~ In name (map name_of ns) -> values_for name ns bs = [].
Proof.
  induction ns as [|n ns IH]; intros [|b bs] NI; cbn [values_for]; auto.
  cbn in NI. assert (NI' : ~ In name (map name_of ns)) by tauto.
  destruct b; auto. destruct (text_eqb (name_of n) name) eqn:E; auto.
  apply text_eqb_spec in E. tauto.
Qed.

(** The decoded nodes of a name. *)
Lemma values_for_decoded dn dv (ds : list (child Sp L)) d : NoDup (map ch_name ds) -> In d ds ->
  forall before ns c bs c', in_turn (child_taken dn dv ds) before ns c bs c' ->
  Forall2 (fun n x => exists c1 c2, dn d n c1 = (c2, DOk x))
    (match ch_mode d with CmBool => [] | _ => filter (fun n => text_eqb (name_of n) (ch_name d)) ns end)
    (values_for (ch_name d) ns bs) \/ ch_mode d = CmFlatten.
Proof.
  intros ND Id before ns c bs c' H.
  assert (Same : forall d' (n : snode Sp), In d' ds -> ch_name d' = name_of n -> name_of n = ch_name d -> d' = d).
  { intros d' n I E E'. eapply same_name_child; eauto. congruence. }
  induction H as [|before n ns c c1 c2 b bs G H IH].
  { left. destruct (ch_mode d); constructor. }
  destruct IH as [IH|]; [left|now right]. cbn [filter].
  inversion G as [n0 d0 c0 x c0' I0 E0 M0 Ne Gx|n0 d0 c0 x c0' I0 E0 M0 Gx|n0 d0 c0 I0 E0 M0 Ne
    |n0 d0 c0 I0 E0 M0 Ne|n0 d0 c0 x c0' Ne Ed Gx|n0 c0 Ne _]; subst; cbn [values_for].
  - destruct (text_eqb (name_of n) (ch_name d)) eqn:E.
    + apply text_eqb_spec in E. assert (d0 = d) by eauto. subst d0. rewrite M0 in *.
      constructor; eauto.
    + exact IH.
  - destruct (text_eqb (name_of n) (ch_name d)) eqn:E.
    + apply text_eqb_spec in E. assert (d0 = d) by eauto. subst d0. rewrite M0 in *.
      constructor; eauto.
    + exact IH.
  - destruct (text_eqb (name_of n) (ch_name d)) eqn:E; [|exact IH].
    apply text_eqb_spec in E. assert (d0 = d) by eauto. subst d0. rewrite M0 in *. exact IH.
  - destruct (text_eqb (name_of n) (ch_name d)) eqn:E; [|exact IH].
    apply text_eqb_spec in E. assert (d0 = d) by eauto. subst d0. rewrite M0 in *. exact IH.
  - destruct (text_eqb (name_of n) (ch_name d)) eqn:E; [|exact IH].
    apply text_eqb_spec in E. exfalso. apply Ne. rewrite E. now apply in_map.
  - destruct (text_eqb (name_of n) (ch_name d)) eqn:E; [|exact IH].
    apply text_eqb_spec in E. exfalso. apply Ne. rewrite E. now apply in_map.
Qed.

(** What each child field holds. *)
Lemma children_field dn dv (ds : list (child Sp L)) ns c out c' :
  plain_children ds -> children_right dn dv ds ns c out c' ->
  forall i d, nth_error ds i = Some d ->
  exists y, nth_error out i = Some y /\ child_is ns dn d y.
Proof.
  intros [ND NF] (bs & xs & H1 & H2 & ->) i d N.
  destruct (Forall2_nth _ _ _ H2 i d N) as (y & Ny & Hy).
  exists y. split; [rewrite nth_error_app1; [exact Ny|apply nth_error_Some; congruence]|].
  pose proof (nth_error_In _ _ N) as Id.
  destruct (values_for_decoded dn dv ds d ND Id _ _ _ _ _ H1) as [V|V];
    [|rewrite Forall_forall in NF; exfalso; exact (NF d Id V)].
  fold (named_nodes (ch_name d) ns) in V.
  inversion Hy as [b M E|x M E|z M E Ab|M E|z M E Ab|M E D O]; subst; rewrite M in V.
  - now apply CI_flag.
  - rewrite E in V. inversion V as [|n ? l ? (c1 & c2 & G) V' En]; subst.
    inversion V'; subst. eapply CI_single; eauto.
  - rewrite E in V. inversion V as [En|]; subst. apply CI_absent; auto.
  - apply CI_multi; auto. intros Em. rewrite Em in V. inversion V; subst. apply E. congruence.
  - rewrite E in V. inversion V as [En|]; subst. apply CI_absent; auto.
  - rewrite E in V. inversion V as [En|]; subst. apply CI_multi_empty; auto.
Qed.

Lemma children_unknown dn dv (ds : list (child Sp L)) ns c out c' :
  (forall d n, In d ds -> moves appends (dn d n)) ->
  (forall f n, dv = Some f -> moves appends (f n)) ->
  children_right dn dv ds ns c out c' -> dv = None ->
  forall n, In n ns -> ~ In (name_of n) (map ch_name ds) -> In (unknown_error n) (c_errors c').
Proof.
  intros W1 W2 (bs & xs & H1 & _) D n I NI. revert I.
  pose proof (child_appends dn dv ds W1 W2) as A.
  induction H1 as [|before m ns c c1 c2 b bs G H IH]; intros I; [destruct I|].
  destruct I as [->|I]; [|auto].
  assert (In (unknown_error n) (c_errors c1)).
  { inversion G as [n0 d0 c0 x c0' I0 E0|n0 d0 c0 x c0' I0 E0|n0 d0 c0 I0 E0
      |n0 d0 c0 I0 E0|n0 d0 c0 x c0' Ne Ed|n0 c0 Ne _]; subst;
      try (exfalso; apply NI; rewrite <- E0; now apply in_map).
    - discriminate.
    - cbn. apply in_or_app. right. now left. }
  pose proof (in_turn_appends _ A _ _ _ _ _ H) as [es E]. rewrite E. apply in_or_app. now left.
Qed.

Lemma children_rest dn (dv : option (node_impl Sp (dval L))) (ds : list (child Sp L)) ns c out c' f :
  children_right dn dv ds ns c out c' -> dv = Some f ->
  exists xs, nth_error out (List.length ds) = Some (VList xs)
    /\ Forall2 (fun n x => exists c1 c2, f n c1 = (c2, DOk x))
         (filter (fun n => negb (existsb (text_eqb (name_of n)) (map ch_name ds))) ns) xs.
Proof.
  intros (bs & ys & H1 & H2 & ->) ->. exists (rest_values bs). split.
  { apply Forall2_len in H2. rewrite nth_error_app2 by lia. now rewrite H2, Nat.sub_diag. }
  clear H2. assert (Here : forall (n : snode Sp) d, In d ds -> ch_name d = name_of n ->
      existsb (text_eqb (name_of n)) (map ch_name ds) = true).
  { intros n d I E. apply existsb_exists. exists (ch_name d). split; [now apply in_map|].
    rewrite E. apply text_eqb_refl. }
  induction H1 as [|before n ns c c1 c2 b bs G H IH]; [constructor|]. cbn [filter].
  inversion G as [n0 d0 c0 x c0' I0 E0|n0 d0 c0 x c0' I0 E0|n0 d0 c0 I0 E0
    |n0 d0 c0 I0 E0|n0 d0 c0 x c0' Ne Ed Gx|n0 c0 Ne Ed]; subst; cbn [rest_values flat_map];
    try (rewrite (Here _ _ I0 E0); exact IH).
  - injection Ed as <-.
    destruct (existsb _ _) eqn:E.
    + exfalso. apply existsb_exists in E. destruct E as (t & I & E). apply text_eqb_spec in E.
      subst t. contradiction.
    + cbn. constructor; eauto.
  - discriminate.
Qed.

End Parts.

(** ** Fields of a struct *)

Lemma all_hold_nth {Sp L} (v : dval L) (fs : list (field Sp L)) xs i f :
  all_hold v fs xs -> nth_error fs i = Some f ->
  exists x, nth_error xs i = Some x /\ holds v f x.
Proof. intros H N. exact (Forall2_nth _ _ _ H i f N). Qed.

Section Struct.
Context {Sp L : Type} (kebab : text -> text) (named : bool) (ident : text) (cont : list (attr L))
  (fs : list (src_field Sp L)) (d : derived Sp L).
Hypothesis Hd : decode_derive kebab (struct_item named ident cont fs) = Some d.
Hypothesis Pr : proper named fs.
Hypothesis Nn : ~ newtype named fs.

Lemma node_arg n c v c' : dr_node d n c = (c', DOk v) ->
  forall i f, nth_error (the_arguments fs) i = Some f ->
  exists x, holds v (ar_field f) x /\
  match nth_error (n_arguments (s_value n)) i with
  | Some a => exists c1 c2,
      decode_value (ar_decode f) (ar_option f) (f_impl (ar_field f)) a c1 = (c2, DOk x)
  | None => absent (ar_default f) (ar_kind_option f) x
  end.
Proof.
  intros H i f N. destruct (args_part kebab named ident cont fs d Hd Pr Nn _ _ _ _ H)
    as (c1 & xs & c2 & R & A).
  destruct (args_field _ _ _ _ _ _ R i f N) as (x & Nx & K). exists x. split; [|exact K].
  destruct (all_hold_nth _ _ _ i (ar_field f) A) as (x' & Nx' & Hx).
  { unfold argument_fields. rewrite nth_error_app1; [now apply map_nth_error|].
    rewrite map_length. apply nth_error_Some. congruence. }
  congruence.
Qed.

Lemma node_args_rest n c v c' f m : dr_node d n c = (c', DOk v) -> the_var_args fs = Some (f, m) ->
  exists xs, holds v f (VList xs)
    /\ Forall2 (fun a x => exists c1 c2, decode_value m false (f_impl f) a c1 = (c2, DOk x))
         (skipn (List.length (the_arguments fs)) (n_arguments (s_value n))) xs.
Proof.
  intros H V. destruct (args_part kebab named ident cont fs d Hd Pr Nn _ _ _ _ H)
    as (c1 & xs & c2 & R & A). rewrite V in R.
  pose proof (args_length _ _ _ _ _ _ R) as Le.
  destruct R as (us & ws & c3 & R1 & R2 & zs & R3 & ->).
  exists zs. split.
  - destruct (all_hold_nth _ _ _ (List.length (the_arguments fs)) f A) as (x & Nx & Hx).
    { unfold argument_fields. rewrite V, nth_error_app2; rewrite map_length; [|lia].
      now rewrite Nat.sub_diag. }
    rewrite !app_length, !map_length in Le. cbn in Le.
    rewrite app_assoc, nth_error_app2 in Nx by (rewrite app_length; lia).
    rewrite app_length in Nx.
    replace (_ - _) with 0 in Nx by lia. injection Nx as <-. exact Hx.
  - clear -R3. induction R3; constructor; eauto.
Qed.

Lemma node_args_surplus n c v c' : dr_node d n c = (c', DOk v) -> the_var_args fs = None ->
  List.length (n_arguments (s_value n)) <= List.length (the_arguments fs).
Proof.
  intros H V. destruct (args_part kebab named ident cont fs d Hd Pr Nn _ _ _ _ H)
    as (c1 & xs & c2 & R & A). rewrite V in R. now destruct R as (? & ? & ? & _ & _ & R & _).
Qed.

Section Props.
Hypothesis PP : plain_props (the_properties kebab fs).

Lemma node_prop n c v c' : NoDup (names_of (n_properties (s_value n))) ->
  dr_node d n c = (c', DOk v) ->
  forall p, In p (the_properties kebab fs) ->
  exists x, holds v (pr_field p) x /\
  ((exists k a c1 c2, In (k, a) (n_properties (s_value n)) /\ s_value k = pr_name p
      /\ decode_value (pr_decode p) (pr_option p) (f_impl (pr_field p)) a c1 = (c2, DOk x))
   \/ (~ In (pr_name p) (names_of (n_properties (s_value n)))
       /\ absent (pr_default p) (pr_option p) x)).
Proof.
  intros ND H p I. destruct (props_part kebab named ident cont fs d Hd Pr Nn _ _ _ _ PP ND H)
    as (c1 & xs & c2 & R & A).
  apply In_nth_error in I. destruct I as [i N].
  destruct (props_field _ _ _ _ _ _ (proj1 PP) ND R i p N) as (x & Nx & K).
  exists x. split; [|exact K].
  destruct (all_hold_nth _ _ _ i (pr_field p) A) as (x' & Nx' & Hx).
  { unfold property_fields. rewrite nth_error_app1; [now apply map_nth_error|].
    rewrite map_length. apply nth_error_Some. congruence. }
  congruence.
Qed.

Lemma node_props_rest n c v c' f m : NoDup (names_of (n_properties (s_value n))) ->
  dr_node d n c = (c', DOk v) -> the_var_props fs = Some (f, m) ->
  exists kxs, holds v f (VPairs kxs)
    /\ Forall2 (fun kv kx => ti_key_from_str (f_impl f) (s_value (fst kv)) = inl (fst kx)
           /\ exists c1 c2, decode_value m false (f_impl f) (snd kv) c1 = (c2, DOk (snd kx)))
         (filter (not_field kebab fs) (n_properties (s_value n))) kxs.
Proof.
  intros ND H V. destruct (props_part kebab named ident cont fs d Hd Pr Nn _ _ _ _ PP ND H)
    as (c1 & xs & c2 & R & A). rewrite V in R.
  destruct R as (ts & us & R1 & R2 & ->). exists (rests ts). split.
  - destruct (all_hold_nth _ _ _ (List.length (the_properties kebab fs)) f A) as (x & Nx & Hx).
    { unfold property_fields. rewrite V, nth_error_app2; rewrite map_length; [|lia].
      now rewrite Nat.sub_diag. }
    apply Forall2_len in R2. rewrite nth_error_app2 in Nx by lia.
    rewrite R2, Nat.sub_diag in Nx. injection Nx as <-. exact Hx.
  - clear -R1. induction R1 as [|before kv kvs c c1 c2 t ts G H IH]; [constructor|].
    cbn [filter].
    inversion G as [k a q cc x cc' Iq En Gx|k a g m' cc kk x cc' Ne Ev Ek Gx]; subst.
    + replace (not_field kebab fs (k, a)) with false; [exact IH|]. symmetry. unfold not_field.
      apply negb_false_iff, existsb_exists. exists (pr_name q). split; [now apply in_map|].
      cbn. rewrite En. apply text_eqb_refl.
    + injection Ev as <- <-. replace (not_field kebab fs (k, a)) with true.
      * cbn. constructor; [|exact IH]. cbn. eauto.
      * symmetry. unfold not_field. apply negb_true_iff. destruct (existsb _ _) eqn:E; [|reflexivity].
        apply existsb_exists in E. destruct E as (nm & I & E). apply text_eqb_spec in E. subst nm.
        cbn in I. contradiction.
Qed.

Lemma node_prop_unknown n c v c' : NoDup (names_of (n_properties (s_value n))) ->
  dr_node d n c = (c', DOk v) -> the_var_props fs = None ->
  forall k a, In (k, a) (n_properties (s_value n)) ->
  In (s_value k) (map pr_name (the_properties kebab fs)).
Proof.
  intros ND H V k a I. destruct (props_part kebab named ident cont fs d Hd Pr Nn _ _ _ _ PP ND H)
    as (c1 & xs & c2 & R & A). rewrite V in R. eapply props_unknown; eauto.
Qed.

End Props.

Section Children.
Hypothesis PC : plain_children (the_children kebab fs).

Lemma children_held_right v ns c zs c' :
  children_are kebab fs ns c zs c' -> all_hold v (child_fields kebab fs) zs ->
  children_held kebab fs v ns.
Proof.
  intros R A. split.
  - intros h I. apply In_nth_error in I. destruct I as [i N].
    destruct (children_field _ _ _ _ _ _ _ PC R i h N) as (x & Nx & K).
    exists x. split; [|exact K].
    destruct (all_hold_nth _ _ _ i (ch_field h) A) as (x' & Nx' & Hx).
    { unfold child_fields. rewrite nth_error_app1; [now apply map_nth_error|].
      rewrite map_length. apply nth_error_Some. congruence. }
    congruence.
  - intros f u V.
    destruct (children_rest _ _ _ _ _ _ _ (node_fn kebab f u) R) as (xs & Nx & K).
    { unfold rest_decoder. now rewrite V. }
    exists xs. split; [|exact K].
    destruct (all_hold_nth _ _ _ (List.length (the_children kebab fs)) f A) as (x & Nx' & Hx).
    { unfold child_fields. rewrite V, nth_error_app2; rewrite map_length; [|lia].
      now rewrite Nat.sub_diag. }
    congruence.
Qed.

Lemma node_held n c v c' : dr_node d n c = (c', DOk v) ->
  children_held kebab fs v (node_children (s_value n)).
Proof.
  intros H. destruct (children_part kebab named ident cont fs d Hd Pr Nn _ _ _ _ PC H)
    as (c1 & zs & R & A). eapply children_held_right; eauto.
Qed.

Lemma document_held f ns c v c' : dr_children d = Some f -> f ns c = (c', DOk v) ->
  children_held kebab fs v ns.
Proof.
  intros F H. destruct (document_right kebab named ident cont fs d Hd Pr Nn _ _ _ _ _ PC F H)
    as (zs & R & _ & A & _). eapply children_held_right; eauto.
Qed.

(** The decoders of the types of the fields only add errors. *)
Hypothesis Ho : Forall (fun f => within appends (sf_impl f)) fs.

Lemma children_reported ns c zs c' : children_are kebab fs ns c zs c' ->
  the_var_children fs = None ->
  forall n, In n ns -> ~ In (name_of n) (map ch_name (the_children kebab fs)) ->
  In (unknown_error n) (c_errors c').
Proof.
  intros R V n I NC.
  pose proof (child_decoders_within kebab named ident cont fs d Hd Pr Nn Ho) as (W4 & W5).
  refine (children_unknown _ _ _ _ _ _ _ W4 _ R _ n I NC).
  - unfold rest_decoder. rewrite V. discriminate.
  - unfold rest_decoder. now rewrite V.
Qed.

Lemma node_child_reported n c v c' : dr_node d n c = (c', DOk v) -> the_var_children fs = None ->
  forall m, In m (node_children (s_value n)) ->
  ~ In (name_of m) (map ch_name (the_children kebab fs)) -> In (unknown_error m) (c_errors c').
Proof.
  intros H V. destruct (children_part kebab named ident cont fs d Hd Pr Nn _ _ _ _ PC H)
    as (c1 & zs & R & A). eapply children_reported; eauto.
Qed.

Lemma document_child_reported f ns c v c' : dr_children d = Some f -> f ns c = (c', DOk v) ->
  the_var_children fs = None ->
  forall m, In m ns ->
  ~ In (name_of m) (map ch_name (the_children kebab fs)) -> In (unknown_error m) (c_errors c').
Proof.
  intros F H V. destruct (document_right kebab named ident cont fs d Hd Pr Nn _ _ _ _ _ PC F H)
    as (zs & R & _ & A & _). eapply children_reported; eauto.
Qed.

End Children.
End Struct.

(** ** The same from one hypothesis *)

Section Derives.
Context {Sp L : Type} (kebab : text -> text) (named : bool) (ident : text) (cont : list (attr L))
  (fs : list (src_field Sp L)) (d : derived Sp L).
Hypothesis D : derives_struct kebab named ident cont fs d.

Lemma ds_arg n c v c' : dr_node d n c = (c', DOk v) ->
  forall i f, nth_error (the_arguments fs) i = Some f ->
  exists x, holds v (ar_field f) x /\
  match nth_error (n_arguments (s_value n)) i with
  | Some a => exists c1 c2,
      decode_value (ar_decode f) (ar_option f) (f_impl (ar_field f)) a c1 = (c2, DOk x)
  | None => absent (ar_default f) (ar_kind_option f) x
  end.
Proof. destruct D as (Hd & Pr & Nn). exact (node_arg kebab named ident cont fs d Hd Pr Nn n c v c'). Qed.

Lemma ds_arg_missing n i f : nth_error (the_arguments fs) i = Some f ->
  ar_default f = None -> ar_kind_option f = false ->
  List.length (n_arguments (s_value n)) <= i ->
  forall c c' v, dr_node d n c <> (c', DOk v).
Proof.
  intros N Df O Le c c' v H. destruct (ds_arg _ _ _ _ H i f N) as (x & _ & K).
  rewrite (proj2 (nth_error_None _ _)) in K by lia. inversion K; congruence.
Qed.

Lemma ds_arg_surplus n : the_var_args fs = None ->
  List.length (the_arguments fs) < List.length (n_arguments (s_value n)) ->
  forall c c' v, dr_node d n c <> (c', DOk v).
Proof.
  destruct D as (Hd & Pr & Nn). intros V Lt c c' v H.
  pose proof (node_args_surplus kebab named ident cont fs d Hd Pr Nn _ _ _ _ H V). lia.
Qed.

Lemma ds_args_rest n c v c' f m : dr_node d n c = (c', DOk v) -> the_var_args fs = Some (f, m) ->
  exists xs, holds v f (VList xs)
    /\ Forall2 (fun a x => exists c1 c2, decode_value m false (f_impl f) a c1 = (c2, DOk x))
         (skipn (List.length (the_arguments fs)) (n_arguments (s_value n))) xs.
Proof.
  destruct D as (Hd & Pr & Nn). exact (node_args_rest kebab named ident cont fs d Hd Pr Nn n c v c' f m).
Qed.

Lemma ds_prop n c v c' : plain_props (the_properties kebab fs) ->
  increasing (n_properties (s_value n)) -> dr_node d n c = (c', DOk v) ->
  forall p, In p (the_properties kebab fs) ->
  exists x, holds v (pr_field p) x /\
  ((exists k a c1 c2, In (k, a) (n_properties (s_value n)) /\ s_value k = pr_name p
      /\ decode_value (pr_decode p) (pr_option p) (f_impl (pr_field p)) a c1 = (c2, DOk x))
   \/ (~ In (pr_name p) (names_of (n_properties (s_value n)))
       /\ absent (pr_default p) (pr_option p) x)).
Proof.
  destruct D as (Hd & Pr & Nn). intros PP I. apply increasing_names in I.
  exact (node_prop kebab named ident cont fs d Hd Pr Nn PP n c v c' I).
Qed.

Lemma ds_prop_missing n p : plain_props (the_properties kebab fs) ->
  increasing (n_properties (s_value n)) -> In p (the_properties kebab fs) ->
  pr_default p = None -> pr_option p = false ->
  ~ In (pr_name p) (names_of (n_properties (s_value n))) ->
  forall c c' v, dr_node d n c <> (c', DOk v).
Proof.
  intros PP I J Df O NI c c' v H.
  destruct (ds_prop _ _ _ _ PP I H p J) as (x & _ & [(k & a & _ & _ & K & E & _)|[_ K]]).
  - apply NI. rewrite <- E. apply (in_map (fun kv => s_value (fst kv)) _ _ K).
  - inversion K; congruence.
Qed.

Lemma ds_prop_unknown n k a : plain_props (the_properties kebab fs) ->
  increasing (n_properties (s_value n)) -> the_var_props fs = None ->
  In (k, a) (n_properties (s_value n)) ->
  ~ In (s_value k) (map pr_name (the_properties kebab fs)) ->
  forall c c' v, dr_node d n c <> (c', DOk v).
Proof.
  destruct D as (Hd & Pr & Nn). intros PP I V J NI c c' v H. apply increasing_names in I.
  exact (NI (node_prop_unknown kebab named ident cont fs d Hd Pr Nn PP n c v c' I H V k a J)).
Qed.

Lemma ds_props_rest n c v c' f m : plain_props (the_properties kebab fs) ->
  increasing (n_properties (s_value n)) ->
  dr_node d n c = (c', DOk v) -> the_var_props fs = Some (f, m) ->
  exists kxs, holds v f (VPairs kxs)
    /\ Forall2 (fun kv kx => ti_key_from_str (f_impl f) (s_value (fst kv)) = inl (fst kx)
           /\ exists c1 c2, decode_value m false (f_impl f) (snd kv) c1 = (c2, DOk (snd kx)))
         (filter (not_field kebab fs) (n_properties (s_value n))) kxs.
Proof.
  destruct D as (Hd & Pr & Nn). intros PP I. apply increasing_names in I.
  exact (node_props_rest kebab named ident cont fs d Hd Pr Nn PP n c v c' f m I).
Qed.

Lemma ds_node_held n c v c' : plain_children (the_children kebab fs) ->
  dr_node d n c = (c', DOk v) -> children_held kebab fs v (node_children (s_value n)).
Proof.
  destruct D as (Hd & Pr & Nn). intros PC.
  exact (node_held kebab named ident cont fs d Hd Pr Nn PC n c v c').
Qed.

Lemma ds_document_held f ns c v c' : plain_children (the_children kebab fs) ->
  dr_children d = Some f -> f ns c = (c', DOk v) -> children_held kebab fs v ns.
Proof.
  destruct D as (Hd & Pr & Nn). intros PC.
  exact (document_held kebab named ident cont fs d Hd Pr Nn PC f ns c v c').
Qed.

Lemma not_held v ns h : In h (the_children kebab fs) ->
  ch_mode h = CmNormal ->
  (named_nodes (ch_name h) ns = [] /\ ch_default h = None /\ ch_option h = false)
  \/ 2 <= List.length (named_nodes (ch_name h) ns) ->
  ~ children_held kebab fs v ns.
Proof.
  intros I M A [H _]. destruct (H h I) as (y & _ & K).
  destruct A as [(E & Df & O)|A];
    inversion K as [b M'|m x c1 c2 M' E'|xs M'|z M' E' Ab|M']; subst; try congruence.
  - inversion Ab; congruence.
  - rewrite E' in A. cbn in A. lia.
  - rewrite E' in A. cbn in A. lia.
Qed.

Lemma ds_child_missing n h : plain_children (the_children kebab fs) ->
  In h (the_children kebab fs) -> ch_mode h = CmNormal ->
  (named_nodes (ch_name h) (node_children (s_value n)) = []
     /\ ch_default h = None /\ ch_option h = false)
  \/ 2 <= List.length (named_nodes (ch_name h) (node_children (s_value n))) ->
  forall c c' v, dr_node d n c <> (c', DOk v).
Proof.
  intros PC I M A c c' v H. eapply not_held; eauto. eapply ds_node_held; eauto.
Qed.

Lemma ds_document_missing f ns h : plain_children (the_children kebab fs) ->
  dr_children d = Some f ->
  In h (the_children kebab fs) -> ch_mode h = CmNormal ->
  (named_nodes (ch_name h) ns = [] /\ ch_default h = None /\ ch_option h = false)
  \/ 2 <= List.length (named_nodes (ch_name h) ns) ->
  forall c c' v, f ns c <> (c', DOk v).
Proof.
  intros PC F I M A c c' v H. eapply not_held; eauto. eapply ds_document_held; eauto.
Qed.

Lemma ds_node_reported : plain_children (the_children kebab fs) ->
  Forall (fun f => within appends (sf_impl f)) fs -> the_var_children fs = None ->
  forall n c v c', dr_node d n c = (c', DOk v) ->
  forall m, In m (node_children (s_value n)) ->
  ~ In (name_of m) (map ch_name (the_children kebab fs)) -> In (unknown_error m) (c_errors c').
Proof.
  destruct D as (Hd & Pr & Nn). intros PC Ho V n c v c' H.
  exact (node_child_reported kebab named ident cont fs d Hd Pr Nn PC Ho n c v c' H V).
Qed.

Lemma ds_document_reported f : plain_children (the_children kebab fs) ->
  Forall (fun f => within appends (sf_impl f)) fs -> the_var_children fs = None ->
  dr_children d = Some f ->
  forall ns c v c', f ns c = (c', DOk v) ->
  forall m, In m ns ->
  ~ In (name_of m) (map ch_name (the_children kebab fs)) -> In (unknown_error m) (c_errors c').
Proof.
  destruct D as (Hd & Pr & Nn). intros PC Ho V F ns c v c' H.
  exact (document_child_reported kebab named ident cont fs d Hd Pr Nn PC Ho f ns c v c' F H V).
Qed.


Hypothesis Ho : Forall (fun f => within appends (sf_impl f)) fs.

Lemma ds_hand n v : plain_fields kebab fs -> increasing (n_properties (s_value n)) ->
  fine (dr_node d n) v -> node_handed kebab fs v n.
Proof.
  destruct D as (Hd & Pr & Nn). intros PF I (c & c' & H & E). apply increasing_names in I.
  exact (node_hand kebab named ident cont fs d Hd Pr Nn Ho n c c' v PF I H E).
Qed.

Lemma ds_took n v : fine (dr_node d n) v -> node_taken kebab fs v n.
Proof.
  destruct D as (Hd & Pr & Nn). intros (c & c' & H & E).
  exact (node_took kebab named ident cont fs d Hd Pr Nn Ho n c c' v H E).
Qed.

Lemma ds_document_hand f ns v : plain_children (the_children kebab fs) ->
  dr_children d = Some f -> fine (f ns) v -> forall m, In m ns -> child_handed kebab fs v ns m.
Proof.
  destruct D as (Hd & Pr & Nn). intros PC F (c & c' & H & E).
  exact (document_hand kebab named ident cont fs d Hd Pr Nn Ho f ns c c' v PC F H E).
Qed.

Lemma ds_document_took f ns v :
  dr_children d = Some f -> fine (f ns) v -> forall m, In m ns -> child_took kebab fs m.
Proof.
  destruct D as (Hd & Pr & Nn). intros F (c & c' & H & E).
  exact (document_took kebab named ident cont fs d Hd Pr Nn Ho f ns c c' v F H E).
Qed.

Lemma ds_node_appends n : moves appends (dr_node d n).
Proof.
  destruct D as (Hd & _ & _).
  refine (wd_node _ _ (derive_within appends appends_onward kebab _ _ _ Hd) n).
  unfold struct_item. cbn [types_in]. rewrite Forall_map. destruct named; exact Ho.
Qed.

End Derives.

(** ** Parsed documents *)

Lemma well_formed_increasing {Sp} (n : snode Sp) : well_formed (s_value n) ->
  increasing (n_properties (s_value n)).
Proof. intros H. now inversion H. Qed.

Lemma parse_fine {A} t (f : children_impl span A) v : parse (parse_ast_span t) f = Value_of v ->
  exists doc, parse_ast_span t = Parsed doc
    /\ Forall (fun n => increasing (n_properties (s_value n))) doc /\ fine (f doc) v.
Proof.
  unfold parse. intros H. apply parse_value_iff in H. destruct H as (doc & c & P & H & E).
  exists doc. split; [exact P|]. split.
  - apply parsed_well_formed in P. revert P. apply Forall_impl. exact well_formed_increasing.
  - exists context_new, c. auto.
Qed.

Lemma vec_fine {Sp A} (d : node_impl Sp A) ns out : (forall n, moves appends (d n)) ->
  fine (vec_children d ns) out -> Forall2 (fun n v => fine (d n) v) ns out.
Proof.
  intros M (c & c' & H & E). unfold vec_children in H. revert H E.
  assert (G : forall ns c acc out, vec_loop d ns acc c = (c', DOk out) -> quiet c c' ->
    exists l, out = acc ++ l /\ Forall2 (fun n v => fine (d n) v) ns l).
  { clear ns c out. induction ns as [|n ns IH]; intros c acc out H Q; cbn [vec_loop] in H.
    - injection H as <- <-. exists []. now rewrite app_nil_r.
    - pose proof (M n c) as M1.
      assert (N : forall n, moves appends (d n)) by exact M.
      destruct (d n c) as [c1 [a|e|]] eqn:G; cbn [fst] in M1; [| |discriminate].
      + assert (M2 : appends c1 c').
        { pose proof (vec_loop_within appends appends_onward d ns (acc ++ [a]) N c1) as K.
          now rewrite H in K. }
        destruct (appends_quiet _ _ _ M1 M2 Q) as [Q1 Q2].
        destruct (IH _ _ _ H Q2) as (l & -> & F). exists (a :: l). rewrite <- app_assoc.
        split; [reflexivity|]. constructor; [|exact F]. exists c, c1. auto.
      + exfalso. assert (M2 : appends (emit_error e c1) c').
        { pose proof (vec_loop_within appends appends_onward d ns acc N (emit_error e c1)) as K.
          now rewrite H in K. }
        destruct M1 as [es1 E1]. destruct M2 as [es2 E2]. cbn in E2. unfold quiet in Q.
        rewrite E2, E1, <- !app_assoc in Q. apply (f_equal (@List.length _)) in Q.
        rewrite !app_length in Q. cbn in Q. lia. }
  intros H E. destruct (G ns c [] out H E) as (l & -> & F). exact F.
Qed.

Section Parse.
Context {L : Type} (kebab : text -> text) (named : bool) (ident : text) (cont : list (attr L))
  (fs : list (src_field span L)) (d : derived span L).
Hypothesis D : derives_struct kebab named ident cont fs d.
Hypothesis Ho : Forall (fun f => within appends (sf_impl f)) fs.

Lemma parse_document_hand t f v : plain_children (the_children kebab fs) ->
  dr_children d = Some f -> parse (parse_ast_span t) f = Value_of v ->
  exists doc, parse_ast_span t = Parsed doc
    /\ forall m, In m doc -> child_handed kebab fs v doc m.
Proof.
  intros PC F H. destruct (parse_fine _ _ _ H) as (doc & P & _ & Q).
  exists doc. split; [exact P|].
  exact (ds_document_hand kebab named ident cont fs d D Ho f doc v PC F Q).
Qed.

Lemma parse_nodes_hand t vs : plain_fields kebab fs ->
  parse (parse_ast_span t) (vec_children (dr_node d)) = Value_of vs ->
  exists doc, parse_ast_span t = Parsed doc
    /\ Forall2 (fun n v => node_handed kebab fs v n) doc vs.
Proof.
  intros PF H. destruct (parse_fine _ _ _ H) as (doc & P & I & Q).
  exists doc. split; [exact P|].
  apply vec_fine in Q; [|exact (ds_node_appends kebab named ident cont fs d D Ho)].
  clear -Q I PF D Ho. induction Q as [|n v ns vs H Q IH]; [constructor|].
  inversion I; subst. constructor; [|auto].
  eapply ds_hand; eauto.
Qed.

End Parse.

(** ** Defaults *)

(** What a field holds: [present] are the decoders of the elements that are there,
    [store] makes the value of the field from the decoded one. *)
Lemma absent_holds {Sp L} (v : dval L) (f : field Sp L) df op x : holds v f x -> absent df op x ->
  (forall y, df = Some y -> holds v f y) /\ (df = None -> op = true -> holds v f VNone).
Proof.
  intros H A. inversion A; subst; split; intros; subst; try congruence.
Qed.

Section Defaults.
Context {Sp L : Type} (kebab : text -> text) (named : bool) (ident : text) (cont : list (attr L))
  (fs : list (src_field Sp L)) (d : derived Sp L).
Hypothesis D : derives_struct kebab named ident cont fs d.

Lemma default_arg n c v c' : dr_node d n c = (c', DOk v) ->
  forall i f, nth_error (the_arguments fs) i = Some f ->
  default_rule v (ar_field f) (ar_default f) (ar_kind_option f)
    (match nth_error (n_arguments (s_value n)) i with Some a => [a] | None => [] end)
    (fun a => decode_value (ar_decode f) (ar_option f) (f_impl (ar_field f)) a) (fun x => x).
Proof.
  intros H i f N. destruct (ds_arg kebab named ident cont fs d D n c v c' H i f N) as (x & Hx & K).
  destruct (nth_error (n_arguments (s_value n)) i) as [a|].
  - destruct K as (c1 & c2 & K). split; [discriminate|]. intros a' E. injection E as <-.
    exists c1, c2, x. auto.
  - split; [intros _|discriminate]. eapply absent_holds; eauto.
Qed.

Lemma default_prop n c v c' : plain_props (the_properties kebab fs) ->
  increasing (n_properties (s_value n)) -> dr_node d n c = (c', DOk v) ->
  forall p, In p (the_properties kebab fs) ->
  default_rule v (pr_field p) (pr_default p) (pr_option p)
    (map snd (filter (fun kv => text_eqb (s_value (fst kv)) (pr_name p)) (n_properties (s_value n))))
    (fun a => decode_value (pr_decode p) (pr_option p) (f_impl (pr_field p)) a) (fun x => x).
Proof.
  intros PP I H p J.
  destruct (ds_prop kebab named ident cont fs d D n c v c' PP I H p J)
    as (x & Hx & [(k & a & c1 & c2 & K & E & G)|[NI A]]).
  - assert (F : filter (fun kv => text_eqb (s_value (fst kv)) (pr_name p)) (n_properties (s_value n))
      = [(k, a)]).
    { apply increasing_names in I. revert I K. clear -E. intros I K.
      induction (n_properties (s_value n)) as [|kv l IH]; [destruct K|].
      cbn in I. inversion I as [|? ? I1 I2]; subst. cbn [filter].
      destruct K as [->|K].
      - cbn [fst]. rewrite E, text_eqb_refl. f_equal.
        assert (G : forall kv, In kv l -> text_eqb (s_value (fst kv)) (pr_name p) = false).
        { intros kv J. destruct (text_eqb _ _) eqn:T; [|reflexivity]. exfalso.
          apply text_eqb_spec in T. apply I1. cbn [fst]. rewrite E, <- T.
          exact (in_map (fun kv => s_value (fst kv)) _ _ J). }
        revert G. clear. induction l as [|kv l IH]; intros G; [reflexivity|]. cbn [filter].
        rewrite (G kv (or_introl eq_refl)). apply IH. intros x J. apply G. now right.
      - destruct (text_eqb _ _) eqn:T; [|auto]. exfalso. apply text_eqb_spec in T.
        apply I1. rewrite T, <- E. exact (in_map (fun kv => s_value (fst kv)) _ _ K). }
    rewrite F. split; [discriminate|]. intros a' E'. injection E' as <-. exists c1, c2, x. auto.
  - split.
    + intros _. eapply absent_holds; eauto.
    + intros a E. exfalso. apply NI.
      assert (J' : In a (map snd (filter (fun kv => text_eqb (s_value (fst kv)) (pr_name p))
        (n_properties (s_value n))))) by (rewrite E; now left).
      apply in_map_iff in J'. destruct J' as (kv & _ & J'). apply filter_In in J'.
      destruct J' as [J' T]. apply text_eqb_spec in T. rewrite <- T.
      exact (in_map (fun kv => s_value (fst kv)) _ _ J').
Qed.

Lemma default_child v ns : children_held kebab fs v ns ->
  forall h, In h (the_children kebab fs) -> ch_mode h = CmNormal ->
  default_rule v (ch_field h) (ch_default h) (ch_option h) (named_nodes (ch_name h) ns)
    (child_fn kebab h) (stored h).
Proof.
  intros [H _] h I M. destruct (H h I) as (y & Hy & K).
  inversion K as [b M'|m x c1 c2 M' E G|xs M'|z M' E Ab|M']; subst; try congruence.
  - rewrite E. split; [discriminate|]. intros a E'. injection E' as <-. exists c1, c2, x. auto.
  - rewrite E. split; [intros _|discriminate]. eapply absent_holds; eauto.
Qed.

Lemma default_node_child n c v c' : plain_children (the_children kebab fs) ->
  dr_node d n c = (c', DOk v) ->
  forall h, In h (the_children kebab fs) -> ch_mode h = CmNormal ->
  default_rule v (ch_field h) (ch_default h) (ch_option h)
    (named_nodes (ch_name h) (node_children (s_value n))) (child_fn kebab h) (stored h).
Proof.
  intros PC H. apply default_child.
  exact (ds_node_held kebab named ident cont fs d D n c v c' PC H).
Qed.

Lemma default_document_child f ns c v c' : plain_children (the_children kebab fs) ->
  dr_children d = Some f -> f ns c = (c', DOk v) ->
  forall h, In h (the_children kebab fs) -> ch_mode h = CmNormal ->
  default_rule v (ch_field h) (ch_default h) (ch_option h)
    (named_nodes (ch_name h) ns) (child_fn kebab h) (stored h).
Proof.
  intros PC F H. apply default_child.
  exact (ds_document_held kebab named ident cont fs d D f ns c v c' PC F H).
Qed.

Lemma default_multi_child n c v c' : plain_children (the_children kebab fs) ->
  dr_node d n c = (c', DOk v) ->
  forall h, In h (the_children kebab fs) -> ch_mode h = CmMulti ->
  let ns := named_nodes (ch_name h) (node_children (s_value n)) in
  (ns = [] -> holds v (ch_field h)
     (match ch_default h with Some y => y | None => if ch_option h then VNone else VList [] end))
  /\ (ns <> [] -> exists xs,
       Forall2 (fun n x => exists c1 c2, child_fn kebab h n c1 = (c2, DOk x)) ns xs
       /\ holds v (ch_field h) (if ch_option h then VSome (VList xs) else VList xs)).
Proof.
  intros PC H h I M ns.
  destruct (ds_node_held kebab named ident cont fs d D n c v c' PC H) as [K _].
  destruct (K h I) as (y & Hy & K'). fold ns in K'.
  inversion K' as [b M'|m x c1 c2 M'|xs M' E G|z M' E Ab|M' E Df O]; subst; try congruence.
  - split; [intros; contradiction|]. intros _. exists xs. auto.
  - fold ns in E. split; [intros _|intros; contradiction].
    inversion Ab as [y' Df|Df O]; subst; rewrite ?Df, ?O in *; auto.
  - fold ns in E. split; [intros _|intros; contradiction]. now rewrite Df, O.
Qed.

End Defaults.

(** [null] for an optional field. *)
Lemma null_str {Sp L} (i : tyimpl Sp L) v c : s_value (v_literal v) = LNull ->
  v_type_name v = None -> decode_value DmStr true i v c = (c, DOk VNone).
Proof. intros E T. unfold decode_value, str_type_name. rewrite T. cbn. now rewrite E. Qed.

Lemma null_bytes {Sp L} (i : tyimpl Sp L) v c : s_value (v_literal v) = LNull ->
  decode_value DmBytes true i v c = (c, DOk VNone).
Proof. intros E. unfold decode_value. now rewrite E. Qed.
