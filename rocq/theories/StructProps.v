(** Derived structs decode as StructSpec.v says. *)

From Coq Require Import NArith List Bool String Lia Arith Permutation.
From Verif Require Import Chars Ast Errors Kdl Decode Scalar DecodeSpec DeriveDef Derive DeriveSpec
  DeriveProps FieldSpec FieldProps StructSpec.
Import ListNotations.

(** ** Sorting *)

Lemma insert_nat_comm x y l : insert_nat x (insert_nat y l) = insert_nat y (insert_nat x l).
Proof.
  induction l as [|z l IH]; cbn.
  - destruct (Nat.leb_spec x y), (Nat.leb_spec y x); try reflexivity; try lia.
    now replace x with y by lia.
  - destruct (Nat.leb_spec x z), (Nat.leb_spec y z); cbn.
    + destruct (Nat.leb_spec x y), (Nat.leb_spec y x); cbn; try lia.
      * now replace x with y by lia.
      * destruct (Nat.leb_spec y z); [reflexivity|lia].
      * destruct (Nat.leb_spec x z); [reflexivity|lia].
    + destruct (Nat.leb_spec x z); [|lia]. destruct (Nat.leb_spec y x); [lia|].
      cbn. destruct (Nat.leb_spec y z); [lia|reflexivity].
    + destruct (Nat.leb_spec y z); [|lia]. destruct (Nat.leb_spec x y); [lia|].
      cbn. destruct (Nat.leb_spec x z); [lia|reflexivity].
    + destruct (Nat.leb_spec x z); [lia|]. destruct (Nat.leb_spec y z); [lia|]. now rewrite IH.
Qed.

Lemma sort_nat_perm l l' : Permutation l l' ->
  fold_right insert_nat [] l = fold_right insert_nat [] l'.
Proof.
  induction 1; cbn; [reflexivity|congruence|apply insert_nat_comm|congruence].
Qed.

Lemma sort_nat_seq n : forall k, fold_right insert_nat [] (seq k n) = seq k n.
Proof.
  induction n as [|n IH]; intros k; [reflexivity|]. cbn [seq fold_right]. rewrite IH.
  destruct n as [|n]; [reflexivity|]. cbn [seq insert_nat].
  destruct (Nat.leb_spec k (S k)); [reflexivity|lia].
Qed.

(** ** Structs from the source *)

Section Derived.
Context {Sp L : Type} (kebab : text -> text).
Implicit Types (fs : list (src_field Sp L)) (s : struct Sp L).

Lemma proper_distinct named ident fs s :
  struct_new kebab ident fs = inl (s, []) -> proper named fs ->
  NoDup (map f_attr (all_fields s)).
Proof.
  intros H [N W]. pose proof (files_once kebab ident fs s H W) as P.
  apply (Permutation_map f_attr) in P. apply Permutation_sym in P. apply (Permutation_NoDup P).
  rewrite map_map. destruct named; [now apply NoDup_names|now apply NoDup_indexes].
Qed.

Lemma proper_tuple ident fs s :
  struct_new kebab ident fs = inl (s, []) -> proper false fs ->
  tuple_ok s = true /\ Forall (fun f => f_attr f = Indexed (as_index f)) (all_fields s).
Proof.
  intros H [N W]. pose proof (files_once kebab ident fs s H W) as P.
  pose proof (attr_indexed fs 0 N) as A. fold (numbered fs) in A.
  assert (I : Forall (fun f => f_attr f = Indexed (as_index f)) (map the_field (numbered fs))).
  { apply Forall_forall. intros f F. apply in_map_iff in F. destruct F as (x & <- & F).
    apply (in_map (fun x => f_attr (the_field x))) in F. rewrite A in F.
    apply in_map_iff in F. destruct F as (i & E & _). unfold as_index. now rewrite <- E. }
  split.
  - unfold tuple_ok. destruct (list_eq_dec _ _ _) as [|E]; [reflexivity|]. exfalso. apply E.
    rewrite sort_fst, map_map. cbn [fst].
    rewrite (Permutation_length (sort_perm _)), map_length.
    rewrite (sort_nat_perm (map (fun x => as_index x) (all_fields s)) (seq 0 (List.length fs))).
    + rewrite sort_nat_seq. f_equal.
      rewrite (Permutation_length P), map_length. unfold numbered.
      rewrite combine_length, seq_length. lia.
    + apply (Permutation_map (fun x => as_index x)) in P. rewrite P, map_map.
      apply (f_equal (map (fun a => match a with Indexed i => i | Named _ => 0 end))) in A.
      rewrite !map_map in A. rewrite map_id in A. unfold as_index. rewrite A. apply Permutation_refl.
  - apply (Permutation_Forall (Permutation_sym P)) in I. exact I.
Qed.

Lemma lone_extra_newtype ident fs s :
  struct_new kebab ident fs = inl (s, []) -> proper false fs ->
  ~ newtype false fs -> lone_extra s = None.
Proof.
  intros H [N W] NN. pose proof (files_once kebab ident fs s H W) as P.
  apply struct_new_filed in H. destruct H as [F _].
  unfold lone_extra. destruct (all_fields s) as [|f [|]] eqn:A; auto.
  destruct (st_extra s) as [|x [|]] eqn:X; auto. exfalso. apply NN. split; [reflexivity|].
  apply Permutation_length in P. rewrite map_length in P. unfold numbered in P.
  rewrite combine_length, seq_length in P. cbn in P.
  destruct fs as [|g [|]]; cbn in P; try lia. exists g. split; [reflexivity|].
  rewrite (fi_extra _ _ _ _ F) in X. cbn in X. rewrite app_nil_r in X. unfold extra_of in X.
  now destruct (mode_of (0, g)).
Qed.

(** What the derive gives for a struct. *)
Lemma derived_struct named ident cont fs d :
  decode_derive kebab (struct_item named ident cont fs) = Some d ->
  proper named fs -> ~ newtype named fs ->
  exists s, struct_new kebab ident fs = inl (s, []) /\ emit_struct kebab named s = Some d.
Proof.
  unfold decode_derive, struct_item, definition_parse. intros H P N. destruct named.
  - destruct (struct_new kebab ident fs) as [[s em]|]; [|discriminate].
    destruct (container_emitted cont ++ em) as [|] eqn:E; [|discriminate].
    apply app_eq_nil in E. destruct E as [_ ->]. exists s. auto.
  - destruct (struct_new kebab ident fs) as [[s em]|] eqn:S; [|discriminate].
    destruct (container_emitted cont ++ em) as [|] eqn:E; [|discriminate].
    apply app_eq_nil in E. destruct E as [_ ->]. exists s. split; [reflexivity|].
    now rewrite (lone_extra_newtype ident fs s S P N) in H.
Qed.

Lemma emit_struct_node named s d : emit_struct kebab named s = Some d ->
  dr_node d = struct_node kebab named s.
Proof.
  unfold emit_struct. destruct ((named || tuple_ok s) && unwraps_compile kebab s); [|discriminate].
  intros H. injection H as <-. reflexivity.
Qed.

Lemma emit_struct_children named s d f : emit_struct kebab named s = Some d ->
  dr_children d = Some f ->
  f = struct_document kebab named s
  /\ st_has_arguments s = false /\ st_has_properties s = false
  /\ st_spans s = [] /\ st_node_names s = [] /\ st_type_names s = [].
Proof.
  unfold emit_struct. destruct ((named || tuple_ok s) && unwraps_compile kebab s); [|discriminate].
  intros H. injection H as <-. cbn [dr_children].
  destruct (st_has_arguments s), (st_has_properties s), (st_spans s), (st_node_names s),
    (st_type_names s); cbn; intros H; try discriminate. injection H as <-. repeat split.
Qed.

Lemma has_arguments ident fs s em : struct_new kebab ident fs = inl (s, em) ->
  st_has_arguments s = false -> st_arguments s = [] /\ st_var_args s = None.
Proof.
  unfold struct_new. destruct (add_fields kebab (builder_new ident) 0 fs) as [b|]; [|discriminate].
  intros H E. injection H as <- _. cbn in *.
  destruct (sb_arguments b), (sb_var_args b); try discriminate. auto.
Qed.

Lemma has_properties ident fs s em : struct_new kebab ident fs = inl (s, em) ->
  st_has_properties s = false -> st_properties s = [] /\ st_var_props s = None.
Proof.
  unfold struct_new. destruct (add_fields kebab (builder_new ident) 0 fs) as [b|]; [|discriminate].
  intros H E. injection H as <- _. cbn in *.
  destruct (sb_properties b), (sb_var_props b); try discriminate. auto.
Qed.

(** The span of the error does not matter to success. *)
Lemma children_any_span (s : struct Sp L) es es' ns c c' zs :
  struct_children kebab s es ns c = (c', DOk zs) -> struct_children kebab s es' ns c = (c', DOk zs).
Proof.
  unfold struct_children, decode_children. intros H. apply d_bind_ok in H.
  destruct H as ([slots rest] & c1 & H1 & H). apply d_bind_ok. exists (slots, rest), c1.
  split; [exact H1|]. apply d_map_ok in H. destruct H as (xs & H & ->).
  apply d_map_ok. exists xs. split; [|reflexivity].
  apply (d_collect_ok _ _ []). apply (d_collect_ok _ _ []) in H.
  refine (proj1 (in_turn_ext _ _ _ _ _ _ _ _) H). clear. intros b [d sl] c y c'.
  unfold gives, child_finish.
  destruct sl; try reflexivity. destruct (ch_default d); [reflexivity|].
  destruct (ch_option d); [reflexivity|]. destruct v; [reflexivity|].
  unfold d_err. split; intros H; discriminate.
Qed.

(** ** Lengths *)

Lemma Forall2_len {A B} (R : A -> B -> Prop) xs ys : Forall2 R xs ys -> List.length xs = List.length ys.
Proof. induction 1; cbn; congruence. Qed.

Lemma special_length spans names types n c c' (out : list (dval L)) :
  special_right (Sp := Sp) spans names types n c out c' ->
  List.length out = List.length (spans ++ names ++ map fst types).
Proof.
  intros (xs & ys & zs & H1 & H2 & H3 & ->). apply in_turn_length in H1.
  apply Forall2_len in H2, H3. rewrite !app_length, map_length. congruence.
Qed.

Lemma args_length (fields : list (arg Sp L)) var given c c' out :
  args_right fields var given c out c' ->
  List.length out = List.length (map ar_field fields ++ map fst (lone var)).
Proof.
  intros (xs & ys & c1 & H1 & H2 & H3). apply in_turn_length in H1. apply Forall2_len in H2.
  rewrite combine_length in H1. rewrite skipn_length in H2.
  rewrite app_length, !map_length. destruct var as [[f m]|].
  - destruct H3 as (zs & _ & ->). rewrite !app_length. cbn. lia.
  - destruct H3 as (H3 & _ & ->). rewrite app_length. cbn. lia.
Qed.

Lemma collect_length {A B} (f : A -> dec Sp B) l c c' ys :
  d_collect f l c = (c', DOk ys) -> List.length ys = List.length l.
Proof. intros H. apply (d_collect_ok _ _ []) in H. now apply in_turn_length in H. Qed.

Lemma prop_branches_length (ps : list (prop Sp L)) : forall slots name v c c' t slots',
  prop_branches ps slots name v c = (c', DOk (t, slots')) ->
  List.length slots' = List.length slots.
Proof.
  induction ps as [|p ps IH]; intros slots name v c c' t slots' H; cbn [prop_branches] in H.
  - apply d_ok_ok in H. destruct H as [_ H]. now injection H as _ ->.
  - destruct slots as [|sl slots].
    { apply d_ok_ok in H. destruct H as [_ H]. now injection H as _ ->. }
    assert (Go : forall x0 c0, d_map (fun '(t, ss) => (t, x0 :: ss)) (prop_branches ps slots name v) c0
        = (c', DOk (t, slots')) -> List.length slots' = List.length (sl :: slots)).
    { intros x0 c0 K. apply d_map_ok in K. destruct K as ([t1 ss] & K & E). injection E as _ ->.
      cbn. f_equal. eauto. }
    assert (Here : forall g m, d_map (fun x : dval L => (true, (g x : prop_slot L) :: slots)) m c
        = (c', DOk (t, slots')) -> List.length slots' = List.length (sl :: slots)).
    { intros g m K. apply d_map_ok in K. destruct K as (x & K & E). injection E as _ ->. reflexivity. }
    destruct sl as [x|x b|x].
    + apply d_bind_ok in H. destruct H as ([[|] x'] & c1 & _ & H).
      * apply d_ok_ok in H. destruct H as [_ H]. injection H as _ ->. reflexivity.
      * now apply Go in H.
    + destruct (text_eqb (s_value name) (pr_name p)); [|now apply Go in H].
      apply (Here (fun x => if pr_option p then POption x true else PPlain (Some x))) in H.
      assumption.
    + destruct (text_eqb (s_value name) (pr_name p)); [|now apply Go in H].
      apply (Here (fun x => if pr_option p then POption x true else PPlain (Some x))) in H.
      assumption.
Qed.

Lemma prop_loop_length (s : struct Sp L) : forall kvs slots rest c c' slots' rest',
  prop_loop s slots rest kvs c = (c', DOk (slots', rest')) ->
  List.length slots' = List.length slots.
Proof.
  induction kvs as [|[k v] kvs IH]; intros slots rest c c' slots' rest' H; cbn [prop_loop] in H.
  - apply d_ok_ok in H. destruct H as [_ H]. now injection H as ->.
  - apply d_bind_ok in H. destruct H as ([t slots1] & c1 & H1 & H).
    apply prop_branches_length in H1. rewrite <- H1.
    destruct t; [eauto|]. destruct (st_var_props s) as [[f m]|].
    + apply d_bind_ok in H. destruct H as (kk & c2 & _ & H).
      apply d_bind_ok in H. destruct H as (x & c3 & _ & H). eauto.
    + apply d_err_ok in H. contradiction.
Qed.

Lemma decode_props_length (s : struct Sp L) n c c' ys :
  decode_props s n c = (c', DOk ys) ->
  List.length ys = List.length (map pr_field (st_properties s) ++ map fst (lone (st_var_props s))).
Proof.
  unfold decode_props. intros H. apply d_bind_ok in H. destruct H as ([slots rest] & c1 & H1 & H).
  apply prop_loop_length in H1. rewrite map_length in H1.
  apply d_map_ok in H. destruct H as (xs & H & ->). apply collect_length in H.
  rewrite combine_length in H. rewrite !app_length, !map_length. destruct (st_var_props s); cbn; lia.
Qed.

Lemma child_branches_length dn (ds : list (child Sp L)) : forall slots n c c' t slots',
  child_branches dn ds slots n c = (c', DOk (t, slots')) ->
  List.length slots' = List.length slots.
Proof.
  induction ds as [|d ds IH]; intros slots n c c' t slots' H; cbn [child_branches] in H.
  - apply d_ok_ok in H. destruct H as [_ H]. now injection H as _ ->.
  - destruct slots as [|sl slots].
    { apply d_ok_ok in H. destruct H as [_ H]. now injection H as _ ->. }
    assert (Go : forall x0 c0, d_map (fun '(t, ss) => (t, x0 :: ss)) (child_branches dn ds slots n) c0
        = (c', DOk (t, slots')) -> List.length slots' = List.length (sl :: slots)).
    { intros x0 c0 K. apply d_map_ok in K. destruct K as ([t1 ss] & K & E). injection E as _ ->.
      cbn. f_equal. eauto. }
    assert (Here : forall g m, d_map (fun x : dval L => (true, (g x : child_slot L) :: slots)) m c
        = (c', DOk (t, slots')) -> List.length slots' = List.length (sl :: slots)).
    { intros g m K. apply d_map_ok in K. destruct K as (x & K & E). injection E as _ ->. reflexivity. }
    destruct sl as [x|xs|x|b].
    + apply d_bind_ok in H. destruct H as ([[|] x'] & c1 & _ & H).
      * apply d_ok_ok in H. destruct H as [_ H]. injection H as _ ->. reflexivity.
      * now apply Go in H.
    + destruct (text_eqb _ (ch_name d)); [|now apply Go in H].
      now apply (Here (fun x => CMulti (xs ++ [x]))) in H.
    + destruct (text_eqb _ (ch_name d)); [|now apply Go in H].
      destruct x as [x|].
      * apply d_err_ok in H. contradiction.
      * now apply (Here (fun x => CNormal (Some x))) in H.
    + destruct (text_eqb _ (ch_name d)); [|now apply Go in H].
      destruct b; injection H as _ _ <-; reflexivity.
Qed.

Lemma child_loop_length dn dv (ds : list (child Sp L)) : forall ns slots rest c c' slots' rest',
  child_loop dn dv ds slots rest ns c = (c', DOk (slots', rest')) ->
  List.length slots' = List.length slots.
Proof.
  induction ns as [|n ns IH]; intros slots rest c c' slots' rest' H; cbn [child_loop] in H.
  - apply d_ok_ok in H. destruct H as [_ H]. now injection H as ->.
  - apply d_bind_ok in H. destruct H as ([t slots1] & c1 & H1 & H).
    apply child_branches_length in H1. rewrite <- H1.
    destruct t; [eauto|]. destruct dv as [f|].
    + apply d_bind_ok in H. destruct H as (x & c3 & _ & H). eauto.
    + apply d_bind_ok in H. destruct H as (x & c3 & _ & H). eauto.
Qed.

Lemma struct_children_length (s : struct Sp L) es ns c c' zs :
  struct_children kebab s es ns c = (c', DOk zs) ->
  List.length zs
  = List.length (map ch_field (st_children s) ++ map fst (lone (st_var_children s))).
Proof.
  unfold struct_children, decode_children. intros H. apply d_bind_ok in H.
  destruct H as ([slots rest] & c1 & H1 & H).
  apply child_loop_length in H1. rewrite map_length in H1.
  apply d_map_ok in H. destruct H as (xs & H & ->). apply collect_length in H.
  rewrite combine_length in H. rewrite !app_length, !map_length. unfold var_child_fn.
  destruct (st_var_children s) as [[]|]; cbn; lia.
Qed.

Lemma props_length (ps : list (prop Sp L)) var kvs c c' out :
  props_right ps var kvs c out c' ->
  List.length out = List.length (map pr_field ps ++ map fst (lone var)).
Proof.
  intros (ts & xs & _ & H2 & ->). apply Forall2_len in H2.
  rewrite !app_length, !map_length. destruct var; cbn; lia.
Qed.

Lemma children_length dn dv (ds : list (child Sp L)) ns c c' out :
  children_right dn dv ds ns c out c' ->
  List.length out = List.length ds + match dv with Some _ => 1 | None => 0 end.
Proof.
  intros (bs & xs & _ & H2 & ->). apply Forall2_len in H2.
  rewrite app_length. destruct dv; cbn; lia.
Qed.

(** ** Values *)

Lemma struct_var_args ident fs s : filed kebab ident fs s -> the_var_args fs = st_var_args s.
Proof. intros F. unfold the_var_args. rewrite <- (fi_var_args _ _ _ _ F). now destruct (st_var_args s). Qed.

Lemma struct_var_props ident fs s : filed kebab ident fs s -> the_var_props fs = st_var_props s.
Proof. intros F. unfold the_var_props. rewrite <- (fi_var_props _ _ _ _ F). now destruct (st_var_props s). Qed.

Lemma struct_var_children ident fs s : filed kebab ident fs s ->
  the_var_children fs = st_var_children s.
Proof.
  intros F. unfold the_var_children. rewrite <- (fi_var_children _ _ _ _ F).
  now destruct (st_var_children s).
Qed.

Lemma all_fields_parts ident fs s : filed kebab ident fs s ->
  all_fields s = special_fields fs ++ argument_fields fs ++ property_fields kebab fs
    ++ child_fields kebab fs ++ extra_fields fs.
Proof.
  intros F. unfold special_fields, argument_fields, property_fields, child_fields, extra_fields.
  rewrite (struct_var_args _ _ _ F), (struct_var_props _ _ _ F), (struct_var_children _ _ _ F).
  unfold all_fields, the_arguments, the_properties, the_children.
  rewrite (fi_spans _ _ _ _ F), (fi_node_names _ _ _ _ F), (fi_type_names _ _ _ _ F),
    (fi_arguments _ _ _ _ F), (fi_properties _ _ _ _ F), (fi_children _ _ _ _ F),
    (fi_extra _ _ _ _ F).
  rewrite <- !app_assoc.
  destruct (st_var_args s) as [[]|], (st_var_props s) as [[]|], (st_var_children s) as [[]|];
    reflexivity.
Qed.

Lemma holds_all named ident fs s vs :
  struct_new kebab ident fs = inl (s, []) -> proper named fs ->
  List.length vs = List.length (all_fields s) ->
  Forall2 (holds (struct_val named s vs)) (all_fields s) vs.
Proof.
  intros H P Len.
  pose proof (proper_distinct _ _ _ _ H P) as D.
  assert (K : named = true \/ (tuple_ok s = true
     /\ Forall (fun f => f_attr f = Indexed (as_index f)) (all_fields s))).
  { destruct named; [now left|right]. eapply proper_tuple; eauto. }
  assert (G : forall i f x, nth_error (all_fields s) i = Some f -> nth_error vs i = Some x ->
     holds (struct_val named s vs) f x).
  { intros i f x. now apply holds_nth. }
  revert G Len. generalize (struct_val named s vs) (all_fields s). clear. intros v l.
  revert vs. induction l as [|f l IH]; intros [|x vs] G Len; try discriminate; constructor.
  - apply (G 0); reflexivity.
  - apply IH; [|now injection Len]. intros i g y Hg Hy. now apply (G (S i)).
Qed.

Lemma is_struct_val named ident fs s vs :
  struct_new kebab ident fs = inl (s, []) -> proper named fs ->
  List.length vs = List.length (all_fields s) ->
  is_struct fs ident (struct_val named s vs).
Proof.
  intros H P Len. pose proof P as [N W].
  pose proof (files_once kebab ident fs s H W) as Pm.
  apply (Permutation_map f_attr) in Pm. rewrite map_map in Pm.
  unfold is_struct, struct_val. eexists. split.
  { f_equal. apply struct_new_filed in H. destruct H as [F _]. apply (fi_ident _ _ _ _ F). }
  destruct named.
  - rewrite map_fst_combine by (rewrite map_length; auto). exact Pm.
  - destruct (proper_tuple _ _ _ H P) as [T I].
    pose proof (tuple_values_fields s vs T Len) as Q. cbn zeta in Q |- *.
    apply (Permutation_map fst) in Q. rewrite Q.
    rewrite map_fst_combine by (rewrite map_length; auto).
    rewrite <- Pm. apply Permutation_refl'. apply map_ext_in. intros f J.
    rewrite Forall_forall in I. symmetry. now apply I.
Qed.

Lemma Forall2_split {A B} (R : A -> B -> Prop) xs xs' ys ys' :
  List.length xs = List.length ys -> Forall2 R (xs ++ xs') (ys ++ ys') ->
  Forall2 R xs ys /\ Forall2 R xs' ys'.
Proof.
  revert ys. induction xs as [|x xs IH]; intros [|y ys] E H; try discriminate.
  - auto.
  - cbn in H. inversion H; subst. injection E as E.
    destruct (IH ys E ltac:(assumption)). auto.
Qed.

Lemma assign_extra_fields ident fs s : filed kebab ident fs s ->
  assign_extra s = map (fun f => ti_default (f_impl f)) (extra_fields fs).
Proof.
  intros F. unfold assign_extra, extra_fields. rewrite (fi_extra _ _ _ _ F), map_map. reflexivity.
Qed.

Lemma Forall2_map_self {A B} (R : A -> B -> Prop) (g : A -> B) xs :
  Forall2 R xs (map g xs) <-> Forall (fun x => R x (g x)) xs.
Proof.
  induction xs as [|x xs IH]; cbn; split; intros H; auto.
  - inversion H; subst. constructor; auto. now apply IH.
  - inversion H; subst. constructor; auto. now apply IH.
Qed.

(** The values of a struct, part by part. *)
Lemma struct_value named ident fs s ws xs ys zs :
  struct_new kebab ident fs = inl (s, []) -> proper named fs ->
  List.length ws = List.length (special_fields fs) ->
  List.length xs = List.length (argument_fields fs) ->
  List.length ys = List.length (property_fields kebab fs) ->
  List.length zs = List.length (child_fields kebab fs) ->
  let v := struct_val named s (ws ++ xs ++ ys ++ zs ++ assign_extra s) in
  is_struct fs ident v
  /\ all_hold v (special_fields fs) ws /\ all_hold v (argument_fields fs) xs
  /\ all_hold v (property_fields kebab fs) ys /\ all_hold v (child_fields kebab fs) zs
  /\ extra_hold fs v.
Proof.
  intros H P L1 L2 L3 L4. cbn zeta.
  pose proof (proj1 (struct_new_filed kebab ident fs s H)) as F.
  assert (Len : List.length (ws ++ xs ++ ys ++ zs ++ assign_extra s)
    = List.length (all_fields s)).
  { rewrite (all_fields_parts _ _ _ F), (assign_extra_fields _ _ _ F), !app_length, !map_length.
    congruence. }
  split; [now apply is_struct_val|].
  pose proof (holds_all named ident fs s _ H P Len) as A.
  rewrite (all_fields_parts _ _ _ F) in A.
  apply Forall2_split in A; [|congruence]. destruct A as [A1 A].
  apply Forall2_split in A; [|congruence]. destruct A as [A2 A].
  apply Forall2_split in A; [|congruence]. destruct A as [A3 A].
  apply Forall2_split in A; [|congruence]. destruct A as [A4 A5].
  split; [exact A1|]. split; [exact A2|]. split; [exact A3|]. split; [exact A4|].
  unfold extra_hold. rewrite (assign_extra_fields _ _ _ F) in A5 at 2.
  now apply Forall2_map_self in A5.
Qed.

(** ** Decoding a node *)

Section Node.
Variables (named : bool) (ident : text) (cont : list (attr L)) (fs : list (src_field Sp L))
  (d : derived Sp L).
Hypothesis Hd : decode_derive kebab (struct_item named ident cont fs) = Some d.
Hypothesis Pr : proper named fs.
Hypothesis Nn : ~ newtype named fs.

(** What every decoded struct is. *)
Lemma node_value n c c' v : dr_node d n c = (c', DOk v) ->
  exists s ws xs ys zs c1 c2 c3,
    struct_new kebab ident fs = inl (s, [])
    /\ decode_specials s n c = (c1, DOk ws) /\ decode_args s n c1 = (c2, DOk xs)
    /\ decode_props s n c2 = (c3, DOk ys)
    /\ struct_children kebab s (Some (s_span n)) (node_children (s_value n)) c3 = (c', DOk zs)
    /\ is_struct fs ident v
    /\ all_hold v (special_fields fs) ws /\ all_hold v (argument_fields fs) xs
    /\ all_hold v (property_fields kebab fs) ys /\ all_hold v (child_fields kebab fs) zs
    /\ extra_hold fs v.
Proof.
  destruct (derived_struct _ _ _ _ _ Hd Pr Nn) as (s & S & E).
  pose proof (proj1 (struct_new_filed kebab ident fs s S)) as F.
  rewrite (emit_struct_node _ _ _ E). unfold struct_node. intros H.
  apply d_bind_ok in H. destruct H as (ws & c1 & H1 & K). apply d_bind_ok in K.
  destruct K as (xs & c2 & H2 & K). apply d_bind_ok in K. destruct K as (ys & c3 & H3 & K).
  apply d_bind_ok in K. destruct K as (zs & c4 & H4 & K). apply d_ok_ok in K.
  destruct K as [-> ->]. exists s, ws, xs, ys, zs, c1, c2, c3.
  split; [assumption|]. split; [assumption|]. split; [assumption|]. split; [assumption|].
  split; [assumption|].
  apply struct_value; auto.
  - apply decode_specials_ok in H1. destruct H1 as (c0 & H1 & _). apply special_length in H1.
    rewrite H1. unfold special_fields.
    now rewrite (fi_spans _ _ _ _ F), (fi_node_names _ _ _ _ F), (fi_type_names _ _ _ _ F).
  - apply decode_args_ok, args_length in H2. rewrite H2. unfold argument_fields.
    rewrite (struct_var_args _ _ _ F). unfold the_arguments.
    now rewrite (fi_arguments _ _ _ _ F).
  - apply decode_props_length in H3. rewrite H3. unfold property_fields.
    rewrite (struct_var_props _ _ _ F). unfold the_properties.
    now rewrite (fi_properties _ _ _ _ F).
  - apply struct_children_length in H4. rewrite H4. unfold child_fields.
    rewrite (struct_var_children _ _ _ F). unfold the_children.
    now rewrite (fi_children _ _ _ _ F).
Qed.

Lemma node_right n c c' v : plain_fields kebab fs -> NoDup (names_of (n_properties (s_value n))) ->
  dr_node d n c = (c', DOk v) ->
  exists ws xs ys zs,
    node_parts kebab fs n c ws xs ys zs c'
    /\ is_struct fs ident v
    /\ all_hold v (special_fields fs) ws /\ all_hold v (argument_fields fs) xs
    /\ all_hold v (property_fields kebab fs) ys /\ all_hold v (child_fields kebab fs) zs
    /\ extra_hold fs v.
Proof.
  intros [PP PC] NK H. destruct (node_value _ _ _ _ H)
    as (s & ws & xs & ys & zs & c1 & c2 & c3 & S & H1 & H2 & H3 & H4 & K).
  pose proof (proj1 (struct_new_filed kebab ident fs s S)) as F.
  exists ws, xs, ys, zs. split; [|exact K]. clear K.
  apply decode_specials_ok in H1. destruct H1 as (c0 & H1 & ->).
  unfold node_parts, children_are, rest_decoder.
  rewrite (struct_var_args _ _ _ F), (struct_var_props _ _ _ F), (struct_var_children _ _ _ F).
  unfold the_properties, the_children, the_arguments in *.
  rewrite <- (fi_spans _ _ _ _ F), <- (fi_node_names _ _ _ _ F), <- (fi_type_names _ _ _ _ F),
    <- (fi_arguments _ _ _ _ F), <- (fi_properties _ _ _ _ F), <- (fi_children _ _ _ _ F) in *.
  exists c0, c2, c3. split; [assumption|]. split; [now apply decode_args_ok|].
  split; [now apply decode_props_ok|].
  now apply decode_children_ok in H4.
Qed.

Lemma node_complete n c c' ws xs ys zs :
  plain_fields kebab fs -> NoDup (names_of (n_properties (s_value n))) ->
  node_parts kebab fs n c ws xs ys zs c' ->
  exists v, dr_node d n c = (c', DOk v)
    /\ is_struct fs ident v
    /\ all_hold v (special_fields fs) ws /\ all_hold v (argument_fields fs) xs
    /\ all_hold v (property_fields kebab fs) ys /\ all_hold v (child_fields kebab fs) zs
    /\ extra_hold fs v.
Proof.
  intros [PP PC] NK (c1 & c2 & c3 & H1 & H2 & H3 & H4).
  destruct (derived_struct _ _ _ _ _ Hd Pr Nn) as (s & S & E).
  pose proof (proj1 (struct_new_filed kebab ident fs s S)) as F.
  exists (struct_val named s (ws ++ xs ++ ys ++ zs ++ assign_extra s)). split.
  - rewrite (emit_struct_node _ _ _ E). unfold struct_node.
    unfold children_are, rest_decoder in *.
    rewrite (struct_var_args _ _ _ F) in H2. rewrite (struct_var_props _ _ _ F) in H3.
    rewrite (struct_var_children _ _ _ F) in H4.
    unfold the_properties, the_children, the_arguments in *.
    rewrite <- (fi_spans _ _ _ _ F), <- (fi_node_names _ _ _ _ F), <- (fi_type_names _ _ _ _ F) in H1.
    rewrite <- (fi_type_names _ _ _ _ F), <- (fi_arguments _ _ _ _ F) in H2.
    rewrite <- (fi_properties _ _ _ _ F) in H3, PP. rewrite <- (fi_children _ _ _ _ F) in H4, PC.
    apply d_bind_ok. exists ws, (with_errors c1 (type_name_errors (st_type_names s) (s_value n))).
    split; [apply decode_specials_ok; eauto|].
    apply d_bind_ok. exists xs, c2. split; [now apply decode_args_ok|].
    apply d_bind_ok. exists ys, c3. split; [now apply decode_props_ok|].
    apply d_bind_ok. exists zs, c'. split; [now apply decode_children_ok|].
    now apply d_ok_ok.
  - apply struct_value; auto.
    + now apply special_length in H1.
    + now apply args_length in H2.
    + now apply props_length in H3.
    + apply children_length in H4. rewrite H4. unfold child_fields, rest_decoder.
      rewrite app_length, !map_length. destruct (the_var_children fs) as [[]|]; reflexivity.
Qed.

(** Each part alone. *)
Lemma args_part n c c' v : dr_node d n c = (c', DOk v) ->
  exists c1 xs c2,
    args_right (the_arguments fs) (the_var_args fs) (n_arguments (s_value n)) c1 xs c2
    /\ all_hold v (argument_fields fs) xs.
Proof.
  intros H. destruct (node_value _ _ _ _ H)
    as (s & ws & xs & ys & zs & c1 & c2 & c3 & S & H1 & H2 & H3 & H4 & K).
  pose proof (proj1 (struct_new_filed kebab ident fs s S)) as F.
  exists c1, xs, c2. split; [|apply K].
  rewrite (struct_var_args _ _ _ F). unfold the_arguments. rewrite <- (fi_arguments _ _ _ _ F).
  now apply decode_args_ok.
Qed.

Lemma props_part n c c' v : plain_props (the_properties kebab fs) ->
  NoDup (names_of (n_properties (s_value n))) -> dr_node d n c = (c', DOk v) ->
  exists c1 ys c2,
    props_right (the_properties kebab fs) (the_var_props fs) (n_properties (s_value n)) c1 ys c2
    /\ all_hold v (property_fields kebab fs) ys.
Proof.
  intros PP NK H. destruct (node_value _ _ _ _ H)
    as (s & ws & xs & ys & zs & c1 & c2 & c3 & S & H1 & H2 & H3 & H4 & K).
  pose proof (proj1 (struct_new_filed kebab ident fs s S)) as F.
  exists c2, ys, c3. split; [|apply K].
  rewrite (struct_var_props _ _ _ F). unfold the_properties in *.
  rewrite <- (fi_properties _ _ _ _ F) in *.
  now apply decode_props_ok.
Qed.

Lemma children_part n c c' v : plain_children (the_children kebab fs) ->
  dr_node d n c = (c', DOk v) ->
  exists c1 zs,
    children_are kebab fs (node_children (s_value n)) c1 zs c'
    /\ all_hold v (child_fields kebab fs) zs.
Proof.
  intros PC H. destruct (node_value _ _ _ _ H)
    as (s & ws & xs & ys & zs & c1 & c2 & c3 & S & H1 & H2 & H3 & H4 & K).
  pose proof (proj1 (struct_new_filed kebab ident fs s S)) as F.
  exists c3, zs. split; [|apply K].
  unfold children_are, rest_decoder, the_children in *.
  rewrite (struct_var_children _ _ _ F). rewrite <- (fi_children _ _ _ _ F) in *.
  now apply decode_children_ok in H4.
Qed.

(** ** Decoding a document *)

Lemma document_value f ns c c' v : dr_children d = Some f -> f ns c = (c', DOk v) ->
  exists s zs,
    struct_new kebab ident fs = inl (s, [])
    /\ struct_children kebab s None ns c = (c', DOk zs)
    /\ is_struct fs ident v /\ all_hold v (child_fields kebab fs) zs /\ extra_hold fs v.
Proof.
  intros D H. destruct (derived_struct _ _ _ _ _ Hd Pr Nn) as (s & S & E).
  pose proof (proj1 (struct_new_filed kebab ident fs s S)) as F.
  destruct (emit_struct_children _ _ _ _ E D) as (-> & A & B & C1 & C2 & C3).
  unfold struct_document in H. apply d_bind_ok in H. destruct H as (zs & c1 & H & K).
  apply d_ok_ok in K. destruct K as [-> ->]. exists s, zs.
  split; [assumption|]. split; [assumption|].
  pose proof (struct_value named ident fs s [] [] [] zs S Pr) as V.
  destruct V as (V1 & _ & _ & _ & V4 & V5); [| | | |auto].
  - unfold special_fields. rewrite <- (fi_spans _ _ _ _ F), <- (fi_node_names _ _ _ _ F),
      <- (fi_type_names _ _ _ _ F), C1, C2, C3. reflexivity.
  - unfold argument_fields. rewrite (struct_var_args _ _ _ F). unfold the_arguments.
    rewrite <- (fi_arguments _ _ _ _ F).
    destruct (has_arguments _ _ _ _ S A) as [-> ->]. reflexivity.
  - unfold property_fields. rewrite (struct_var_props _ _ _ F). unfold the_properties.
    rewrite <- (fi_properties _ _ _ _ F).
    destruct (has_properties _ _ _ _ S B) as [-> ->]. reflexivity.
  - apply struct_children_length in H. rewrite H. unfold child_fields.
    rewrite (struct_var_children _ _ _ F). unfold the_children.
    now rewrite (fi_children _ _ _ _ F).
Qed.

Lemma document_right f ns c c' v : plain_children (the_children kebab fs) ->
  dr_children d = Some f -> f ns c = (c', DOk v) ->
  exists zs, children_are kebab fs ns c zs c'
    /\ is_struct fs ident v /\ all_hold v (child_fields kebab fs) zs /\ extra_hold fs v.
Proof.
  intros PC D H. destruct (document_value _ _ _ _ _ D H) as (s & zs & S & H4 & K).
  pose proof (proj1 (struct_new_filed kebab ident fs s S)) as F.
  exists zs. split; [|exact K].
  unfold children_are, rest_decoder, the_children in *.
  rewrite (struct_var_children _ _ _ F). rewrite <- (fi_children _ _ _ _ F) in *.
  now apply decode_children_ok in H4.
Qed.

Lemma document_complete f ns c c' zs : plain_children (the_children kebab fs) ->
  dr_children d = Some f -> children_are kebab fs ns c zs c' ->
  exists v, f ns c = (c', DOk v)
    /\ is_struct fs ident v /\ all_hold v (child_fields kebab fs) zs /\ extra_hold fs v.
Proof.
  intros PC D H4. destruct (derived_struct _ _ _ _ _ Hd Pr Nn) as (s & S & E).
  pose proof (proj1 (struct_new_filed kebab ident fs s S)) as F.
  pose proof (emit_struct_children _ _ _ _ E D) as (-> & _).
  assert (R : struct_document kebab named s ns c = (c', DOk (struct_val named s (zs ++ assign_extra s)))).
  { unfold struct_document. apply d_bind_ok. exists zs, c'. split; [|now apply d_ok_ok].
    unfold children_are, rest_decoder, the_children in *.
    rewrite (struct_var_children _ _ _ F) in H4. rewrite <- (fi_children _ _ _ _ F) in *.
    now apply decode_children_ok. }
  exists (struct_val named s (zs ++ assign_extra s)). split; [exact R|].
  destruct (document_value _ _ _ _ _ D R) as (s' & zs' & S' & H4' & K).
  assert (s' = s) by congruence. subst s'.
  assert (zs' = zs); [|now subst].
  unfold struct_document in R. apply d_bind_ok in R. destruct R as (zs1 & c1 & R & _).
  assert (R' : struct_children kebab s None ns c = (c', DOk zs)).
  { unfold children_are, rest_decoder, the_children in *.
    rewrite (struct_var_children _ _ _ F) in H4. rewrite <- (fi_children _ _ _ _ F) in *.
    now apply decode_children_ok. }
  congruence.
Qed.

(** A document is decoded like the children of a node that has nothing else. *)
Lemma document_node f ns c c' v n : dr_children d = Some f ->
  n_arguments (s_value n) = [] -> n_properties (s_value n) = [] ->
  n_type_name (s_value n) = None -> node_children (s_value n) = ns ->
  f ns c = (c', DOk v) <-> dr_node d n c = (c', DOk v).
Proof.
  intros D A P T Ch. destruct (derived_struct _ _ _ _ _ Hd Pr Nn) as (s & S & E).
  destruct (emit_struct_children _ _ _ _ E D) as (-> & HA & HB & C1 & C2 & C3).
  rewrite (emit_struct_node _ _ _ E). unfold struct_document, struct_node.
  unfold decode_specials, decode_args, decode_props. rewrite C1, C2, C3, A, P, T, Ch.
  destruct (has_arguments _ _ _ _ S HA) as [-> ->].
  destruct (has_properties _ _ _ _ S HB) as [-> ->].
  cbn [d_collect arg_fields prop_loop map combine].
  split; intros H.
  - apply d_bind_ok in H. destruct H as (zs & c1 & H & K). apply d_ok_ok in K.
    destruct K as [-> ->].
    apply d_bind_ok. exists [], c. split; [reflexivity|].
    apply d_bind_ok. exists [], c. split; [reflexivity|].
    apply d_bind_ok. exists [], c. split; [reflexivity|].
    apply d_bind_ok. eexists zs, _. split; [|reflexivity].
    eapply children_any_span; eassumption.
  - apply d_bind_ok in H. destruct H as (ws & c1 & H1 & H). injection H1 as <- <-.
    apply d_bind_ok in H. destruct H as (xs & c1 & H1 & H). injection H1 as <- <-.
    apply d_bind_ok in H. destruct H as (ys & c1 & H1 & H). injection H1 as <- <-.
    apply d_bind_ok in H. destruct H as (zs & c1 & H1 & H). apply d_ok_ok in H.
    destruct H as [-> ->].
    apply d_bind_ok. eexists zs, _. split; [|reflexivity].
    eapply children_any_span; eassumption.
Qed.

End Node.

End Derived.
