(** Derived decoders point at what they decode. *)

From Coq Require Import NArith ZArith List Bool String Lia.
From Verif Require Import Chars Ast Errors Kdl Chumsky Spans Grammar Decode Scalar Containers DecodeSpec DecodeProps
  DeriveDef Derive DeriveSpec DeriveProps FieldSpec FieldProps StructSpec StructProps
  LineSpec PointSpec.
Import ListNotations.

Section Monad.
Context {Sp : Type} (E : derror Sp -> Prop).

Lemma says_same {A} (m : dec Sp A) :
  (forall c, fst (m c) = c) -> (forall c e, snd (m c) = DErr e -> E e) -> reports E m.
Proof.
  intros H K c. split; [|apply K]. exists []. rewrite H, app_nil_r. split; [reflexivity|constructor].
Qed.

Lemma says_ok {A} (a : A) : reports E (d_ok a).
Proof. apply says_same; [reflexivity|discriminate]. Qed.

Lemma says_err {A} e : E e -> reports E (A := A) (d_err e).
Proof. intros H. apply says_same; [reflexivity|]. intros c e' K. injection K as <-. exact H. Qed.

Lemma says_panic {A} : reports E (A := A) d_panic.
Proof. apply says_same; [reflexivity|discriminate]. Qed.

Lemma says_emit e : E e -> reports E (d_emit e).
Proof.
  intros H c. split; [|discriminate]. exists [e]. split; [reflexivity|]. now constructor.
Qed.

Lemma says_then {A B} (Q : A -> Prop) (m : dec Sp A) (f : A -> dec Sp B) :
  reports E m -> (forall c a, snd (m c) = DOk a -> Q a) -> (forall a, Q a -> reports E (f a)) ->
  reports E (d_bind m f).
Proof.
  intros M W F c. destruct (M c) as [(es & M1 & M2) M3]. specialize (W c). unfold d_bind.
  destruct (m c) as [c1 [a|e|]]; cbn [fst snd] in *.
  - destruct (F a (W a eq_refl) c1) as [(es' & F1 & F2) F3]. split; [|exact F3].
    exists (es ++ es'). rewrite F1, M1, app_assoc. split; [reflexivity|]. apply Forall_app. now split.
  - split; [eauto|]. intros e' K. injection K as <-. auto.
  - split; [eauto|discriminate].
Qed.

Lemma says_bind {A B} (m : dec Sp A) (f : A -> dec Sp B) :
  reports E m -> (forall a, reports E (f a)) -> reports E (d_bind m f).
Proof. intros M F. apply says_then with (Q := fun _ => True); auto. Qed.

Lemma says_map {A B} (f : A -> B) (m : dec Sp A) : reports E m -> reports E (d_map f m).
Proof. intros M. apply says_bind; auto. intros a. apply says_ok. Qed.

Lemma says_collect {A B} (f : A -> dec Sp B) l :
  (forall a, In a l -> reports E (f a)) -> reports E (d_collect f l).
Proof.
  induction l as [|a l IH]; intros F; cbn [d_collect]; [apply says_ok|].
  apply says_bind; [apply F; now left|]. intros b.
  apply says_bind; [apply IH; intros; apply F; now right|]. intros bs. apply says_ok.
Qed.

(** Steps that only change the context. *)
Definition logs (f : context Sp -> context Sp) : Prop :=
  forall c, exists es, c_errors (f c) = c_errors c ++ es /\ Forall E es.

Lemma logs_id : logs (fun c => c).
Proof. intros c. exists []. rewrite app_nil_r. split; [reflexivity|constructor]. Qed.

Lemma logs_emit e : E e -> logs (emit_error e).
Proof. intros H c. exists [e]. split; [reflexivity|]. now constructor. Qed.

Lemma logs_trans f g : logs f -> logs g -> logs (fun c => g (f c)).
Proof.
  intros F G c. destruct (F c) as (es & F1 & F2). destruct (G (f c)) as (es' & G1 & G2).
  exists (es ++ es'). rewrite G1, F1, app_assoc. split; [reflexivity|]. apply Forall_app. now split.
Qed.

Lemma logs_fold {X} (e : X -> derror Sp) l :
  (forall x, In x l -> E (e x)) -> logs (fun c => fold_left (fun c x => emit_error (e x) c) l c).
Proof.
  induction l as [|x l IH]; intros H; cbn [fold_left]; [apply logs_id|].
  apply (logs_trans (emit_error (e x)) (fun c => fold_left (fun c x => emit_error (e x) c) l c)).
  - apply logs_emit, H. now left.
  - apply IH. intros y I. apply H. now right.
Qed.

Lemma says_logs {A} (f : context Sp -> context Sp) (g : context Sp -> dout Sp A) :
  logs f -> (forall c e, g c = DErr e -> E e) -> reports E (fun c => (f c, g c)).
Proof. intros H K c. split; [apply H|apply K]. Qed.

Lemma reports_logs {A} (m : dec Sp A) : reports E m -> logs (fun c => fst (m c)).
Proof. intros M c. apply (M c). Qed.

End Monad.

Lemma reports_mono {Sp A} (E E' : derror Sp -> Prop) (m : dec Sp A) :
  (forall e, E e -> E' e) -> reports E m -> reports E' m.
Proof.
  intros H M c. destruct (M c) as [(es & M1 & M2) M3]. split; [|eauto].
  exists es. split; [exact M1|]. eapply Forall_impl; eauto.
Qed.

Lemma reports_ext {Sp A} (E : derror Sp -> Prop) (m m' : dec Sp A) :
  (forall c, m c = m' c) -> reports E m -> reports E m'.
Proof. intros H M c. rewrite <- H. apply M. Qed.

(** ** Derived decoders *)

Section Derived.
Context {Sp L : Type} (kebab : text -> text).
Implicit Types (i : tyimpl Sp L) (s : struct Sp L).
Variable P : Sp -> Prop.
Variable E : derror Sp -> Prop.
Hypothesis HE : forall e sp, error_span e = Some sp -> P sp -> E e.

(** A type that points, given spans with the property. *)
Record aims i : Prop := Aims {
  ai_scalar : forall v, Forall P (value_spans v) -> reports E (ti_scalar i v);
  ai_node : forall n, Forall P (snode_spans n) -> reports E (ti_node i n);
  ai_span : forall sp, P sp -> logs E (fun c => fst (ti_span i sp c));
  ai_insert_child : forall x n, Forall P (snode_spans n) -> reports E (ti_insert_child i x n);
  ai_insert_property :
    forall x k v, Forall P (property_spans (k, v)) -> reports E (ti_insert_property i x k v);
}.

Lemma pointing_aims i : pointing i -> aims i.
Proof.
  intros [H1 H2 H3 H4 H5].
  assert (M : forall l, Forall P l -> forall e, points_at l e -> E e).
  { intros l F e (sp & A & B). rewrite Forall_forall in F. eauto. }
  split; intros.
  - eapply reports_mono; [|apply H1]. now apply M.
  - eapply reports_mono; [|apply H2]. now apply M.
  - assert (K : reports E (d_pure (ti_span i sp))).
    { eapply reports_mono; [|apply H3]. apply M. now constructor. }
    intros c. destruct (K c) as [K' _]. unfold d_pure in K'. now destruct (ti_span i sp c).
  - eapply reports_mono; [|apply H4]. now apply M.
  - eapply reports_mono; [|apply H5]. now apply M.
Qed.

Lemma convert_says {T A} (x : spanned T Sp) (r : A + source) : P (s_span x) ->
  reports E (d_convert x r).
Proof.
  intros H. destruct r; [apply says_ok|]. apply says_err. eapply HE; [reflexivity|exact H].
Qed.

Lemma value_parts (v : value Sp) : Forall P (value_spans v) ->
  P (s_span (v_literal v)) /\ forall t, v_type_name v = Some t -> P (s_span t).
Proof.
  unfold value_spans. intros H. apply Forall_app in H. destruct H as [H1 H2].
  split; [now inversion H2|]. intros t Et. rewrite Et in H1. now inversion H1.
Qed.

Lemma bytes_says (v : value Sp) : Forall P (value_spans v) -> logs E (fun c => fst (bytes v c)).
Proof.
  intros H. destruct (value_parts v H) as [H1 H2]. unfold bytes.
  destruct (v_type_name v) as [t|].
  - specialize (H2 t eq_refl). destruct (typename_as_builtin (s_value t)) as [[]|];
      try (apply logs_emit; eapply HE; [reflexivity|assumption]).
    destruct (s_value (v_literal v)); try (apply logs_emit; eapply HE; [reflexivity|assumption]).
    destruct (b64_decode _); [apply logs_id|apply logs_emit; eapply HE; [reflexivity|assumption]].
  - destruct (s_value (v_literal v)); try apply logs_id;
      apply logs_emit; eapply HE; (reflexivity || assumption).
Qed.

Lemma value_says m o i v : aims i -> Forall P (value_spans v) -> reports E (decode_value m o i v).
Proof.
  intros H V. destruct (value_parts v V) as [H1 H2]. unfold decode_value.
  assert (St : reports E (str_type_name v)).
  { unfold str_type_name. destruct (v_type_name v); [|apply says_ok].
    apply says_emit. eapply HE; [reflexivity|]. now apply H2. }
  assert (Sk : E (scalar_kind KString (v_literal v))) by (eapply HE; [reflexivity|exact H1]).
  destruct m, o; try now apply ai_scalar.
  - apply says_bind; [exact St|]. intros _. destruct (s_value (v_literal v));
      first [apply says_ok|apply says_map; now apply convert_says
            |apply says_bind; [now apply says_emit|intros; apply says_ok]].
  - apply says_bind; [exact St|]. intros _. destruct (s_value (v_literal v));
      first [now apply says_err|now apply convert_says].
  - assert (By : reports E (fun c => let '(c', b) := bytes v c in
          match ti_from_bytes i b with
          | inl x => (c', DOk (VSome x))
          | inr e => (emit_error (conversion (v_literal v) e) c', DOk VNone)
          end)).
    { intros c. destruct (bytes_says v V c) as (es & B1 & B2). destruct (bytes v c) as [c' b].
      cbn [fst] in B1. destruct (ti_from_bytes i b); cbn [fst snd]; (split; [|discriminate]).
      - eauto.
      - exists (es ++ [conversion (v_literal v) s]). cbn [emit_error c_errors].
        rewrite B1, app_assoc. split; [reflexivity|]. apply Forall_app. split; [exact B2|].
        constructor; [|constructor]. eapply HE; [reflexivity|exact H1]. }
    destruct (s_value (v_literal v)); try apply says_ok; exact By.
  - intros c. destruct (bytes_says v V c) as (es & B1 & B2). destruct (bytes v c) as [c' b].
    cbn [fst] in B1.
    destruct (convert_says (v_literal v) (ti_from_bytes i b) H1 c') as [(es' & C1 & C2) C3].
    split; [|exact C3]. exists (es ++ es'). rewrite C1, B1, app_assoc. split; [reflexivity|].
    apply Forall_app. now split.
Qed.

(** The parts of a node. *)
Lemma node_parts_spans (n : node Sp) : Forall P (node_spans n) ->
  (forall t, n_type_name n = Some t -> P (s_span t)) /\ P (s_span (n_node_name n))
  /\ (forall v, In v (n_arguments n) -> Forall P (value_spans v))
  /\ (forall kv, In kv (n_properties n) -> Forall P (property_spans kv))
  /\ (forall m, In m (node_children n) -> Forall P (snode_spans m)).
Proof.
  destruct n as [ty nm args props ch]. unfold node_children.
  cbn [node_spans n_type_name n_node_name n_arguments n_properties n_children].
  intros H. apply Forall_app in H. destruct H as [H1 H].
  apply Forall_app in H. destruct H as [H2 H']. apply Forall_inv in H2.
  apply Forall_app in H'. destruct H' as [H3 H'].
  apply Forall_app in H'. destruct H' as [H4 H5].
  split; [intros t ->; now inversion H1|]. split; [exact H2|].
  rewrite Forall_flat_map, Forall_forall in H3. split; [exact H3|].
  rewrite Forall_flat_map, Forall_forall in H4. split; [exact H4|].
  destruct ch as [[sp c]|]; [|contradiction]. inversion H5 as [|x l _ H6 Ex]; subst.
  rewrite Forall_flat_map, Forall_forall in H6. exact H6.
Qed.

Definition aims_struct s : Prop := Forall (fun f => aims (f_impl f)) (all_fields s).

Lemma aims_parts s : aims_struct s ->
  (forall f, In f (st_spans s) -> aims (f_impl f))
  /\ (forall a, In a (st_arguments s) -> aims (f_impl (ar_field a)))
  /\ (forall f m, st_var_args s = Some (f, m) -> aims (f_impl f))
  /\ (forall p, In p (st_properties s) -> aims (f_impl (pr_field p)))
  /\ (forall f m, st_var_props s = Some (f, m) -> aims (f_impl f))
  /\ (forall d, In d (st_children s) -> aims (f_impl (ch_field d)))
  /\ (forall f m, st_var_children s = Some (f, m) -> aims (f_impl f)).
Proof.
  unfold aims_struct, all_fields. rewrite !Forall_app. rewrite !Forall_forall.
  intros (H1 & _ & _ & H4 & H5 & H6 & H7 & H8 & H9 & _).
  split; [exact H1|]. split; [intros a I; now apply H4, in_map|].
  split; [intros f m Ef; rewrite Ef in H5; apply H5; now left|].
  split; [intros a I; now apply H6, in_map|].
  split; [intros f m Ef; rewrite Ef in H7; apply H7; now left|].
  split; [intros a I; now apply H8, in_map|].
  intros f m Ef; rewrite Ef in H9; apply H9; now left.
Qed.

Lemma missing_says {A} (n : snode Sp) m : Forall P (snode_spans n) ->
  reports E (A := A) (d_err (missing n m)).
Proof.
  intros H. inversion H as [|x l _ H' Ex]; subst. apply node_parts_spans in H'.
  apply says_err. eapply HE; [reflexivity|]. apply H'.
Qed.

Lemma specials_says s n : aims_struct s -> Forall P (snode_spans n) ->
  reports E (decode_specials s n).
Proof.
  intros H N. apply aims_parts in H. destruct H as (H & _). unfold decode_specials.
  inversion N as [|x l N1 N2 Ex]; subst. apply node_parts_spans in N2.
  destruct N2 as (N2 & N3 & _). apply says_bind.
  { apply says_collect. intros f I c. unfold special_span.
    pose proof (ai_span _ (H f I) _ N1 c) as W. cbv beta in W. destruct (ti_span _ _ _).
    split; [exact W|discriminate]. }
  intros xs. apply says_bind.
  { apply says_collect. intros f I. now apply convert_says. }
  intros ys. apply says_bind.
  { apply says_collect. intros [f o] I. unfold special_type_name.
    destruct (n_type_name (s_value n)) as [t|].
    - destruct o; [apply says_map|]; apply convert_says; now apply N2.
    - destruct o; [apply says_ok|now apply missing_says]. }
  intros zs. apply says_bind.
  { destruct (st_type_names s); [destruct (n_type_name (s_value n)) as [t|]|]; try apply says_ok.
    apply says_emit. eapply HE; [reflexivity|]. now apply N2. }
  intros _. apply says_ok.
Qed.

Lemma arg_fields_left n (l : list (arg Sp L)) : forall it c c' xs it',
  arg_fields n l it c = (c', DOk (xs, it')) -> incl it' it.
Proof.
  induction l as [|a l IH]; intros it c c' xs it' K; cbn [arg_fields] in K.
  { injection K as _ _ <-. apply incl_refl. }
  apply d_bind_ok in K. destruct K as ([x it1] & c1 & K1 & K2).
  apply d_map_ok in K2. destruct K2 as ([ys it2] & K2 & K3). injection K3 as _ <-.
  apply IH in K2. intros v I. apply K2 in I. destruct it as [|w it].
  - destruct (ar_default a), (ar_kind_option a); try discriminate; injection K1 as _ _ <-; exact I.
  - apply d_map_ok in K1. destruct K1 as (y & _ & K1). injection K1 as _ <-. now right.
Qed.

Lemma arg_fields_says n (l : list (arg Sp L)) : Forall P (snode_spans n) ->
  (forall a, In a l -> aims (f_impl (ar_field a))) ->
  forall it, (forall v, In v it -> Forall P (value_spans v)) -> reports E (arg_fields n l it).
Proof.
  intros N. induction l as [|a l IH]; intros H it V; cbn [arg_fields]; [apply says_ok|].
  assert (Ht : forall b, In b l -> aims (f_impl (ar_field b))) by (intros; apply H; now right).
  assert (Ha : aims (f_impl (ar_field a))) by (apply H; now left).
  destruct it as [|v it].
  - apply says_then with (Q := fun p => snd p = []).
    + destruct (ar_default a), (ar_kind_option a); first [apply says_ok|now apply missing_says].
    + intros c p K. destruct (ar_default a), (ar_kind_option a); try discriminate;
        injection K as <-; reflexivity.
    + intros [x it'] K. cbn in K. subst it'. apply says_map. now apply IH.
  - apply says_then with (Q := fun p => snd p = it).
    + apply says_map, value_says; [exact Ha|apply V; now left].
    + intros c p K. unfold d_map, d_bind in K.
      destruct (decode_value _ _ _ _ c) as [c2 [y|e|]]; try discriminate.
      now injection K as <-.
    + intros [x it'] K. cbn in K. subst it'. apply says_map. apply IH; [exact Ht|].
      intros w I. apply V. now right.
Qed.

Lemma args_says s n : aims_struct s -> Forall P (snode_spans n) -> reports E (decode_args s n).
Proof.
  intros H N. apply aims_parts in H. destruct H as (_ & H1 & H2 & _). unfold decode_args.
  pose proof N as N'. inversion N' as [|x l N1 N2 Ex]; subst. apply node_parts_spans in N2.
  destruct N2 as (_ & _ & N2 & _).
  apply says_then with (Q := fun p => incl (snd p) (n_arguments (s_value n))).
  - now apply arg_fields_says.
  - intros c [xs it] K. destruct (arg_fields _ _ _ c) as [c' o] eqn:Ea. cbn [snd] in K. subst o.
    eapply arg_fields_left. exact Ea.
  - intros [xs it] K. cbn [snd] in K.
    assert (V : forall v, In v it -> Forall P (value_spans v)) by auto.
    destruct (st_var_args s) as [[f m]|].
    + apply says_map, says_collect. intros v I. apply value_says; [eapply H2; reflexivity|now apply V].
    + destruct it as [|v it]; [apply says_ok|]. apply says_err. eapply HE; [reflexivity|].
      apply value_parts, V. now left.
Qed.

Lemma prop_branches_says name v (ps : list (prop Sp L)) :
  Forall P (property_spans (name, v)) ->
  (forall p, In p ps -> aims (f_impl (pr_field p))) ->
  forall slots, reports E (prop_branches ps slots name v).
Proof.
  intros V. assert (V' : Forall P (value_spans v)) by now inversion V.
  induction ps as [|p ps IH]; intros H slots; cbn [prop_branches]; [apply says_ok|].
  assert (Ht : forall p, In p ps -> aims (f_impl (pr_field p))) by (intros; apply H; now right).
  assert (Hp : aims (f_impl (pr_field p))) by (apply H; now left).
  destruct slots as [|sl slots]; [apply says_ok|]. destruct sl as [x|x b|x].
  - apply says_bind; [now apply ai_insert_property|]. intros [[|] x'].
    + apply says_ok.
    + now apply says_map, IH.
  - destruct (text_eqb _ _); apply says_map; [now apply value_says|now apply IH].
  - destruct (text_eqb _ _); apply says_map; [now apply value_says|now apply IH].
Qed.

Lemma props_says s n : aims_struct s -> Forall P (snode_spans n) -> reports E (decode_props s n).
Proof.
  intros H N. apply aims_parts in H. destruct H as (_ & _ & _ & H1 & H2 & _).
  pose proof N as N'. inversion N' as [|x l N1 N2 Ex]; subst. apply node_parts_spans in N2.
  destruct N2 as (_ & _ & _ & N2 & _).
  unfold decode_props. apply says_bind.
  - generalize (map prop_start (st_properties s)), (@nil (dval L * dval L)).
    revert N2. induction (n_properties (s_value n)) as [|[k v] kvs IH]; intros N2 slots rest;
      cbn [prop_loop]; [apply says_ok|].
    assert (V : Forall P (property_spans (k, v))) by (apply N2; now left).
    assert (IH' : forall slots rest, reports E (prop_loop s slots rest kvs)).
    { apply IH. intros kv I. apply N2. now right. }
    inversion V as [|x l Vk Vv Ex]; subst.
    apply says_bind; [now apply prop_branches_says|]. intros [[|] slots']; [apply IH'|].
    destruct (st_var_props s) as [[f m]|];
      [|apply says_err; eapply HE; [reflexivity|exact Vk]].
    apply says_bind; [now apply convert_says|]. intros kk.
    apply says_bind; [apply value_says; [eapply H2; reflexivity|exact Vv]|]. intros x. apply IH'.
  - intros [slots rest]. apply says_map, says_collect. intros [p sl] _. cbn [prop_finish].
    destruct sl as [x|x b|[x|]]; try destruct (pr_default p);
      first [apply says_ok|now apply missing_says].
Qed.

Lemma flag_says (n : snode Sp) : Forall P (snode_spans n) -> logs E (check_flag_node n).
Proof.
  intros N. inversion N as [|x l N1 N2 Ex]; subst. apply node_parts_spans in N2.
  destruct N2 as (_ & _ & N2 & N3 & N4). unfold check_flag_node.
  assert (A1 := logs_fold E unexpected_arg (n_arguments (s_value n))).
  assert (A2 := logs_fold E (fun kv : spanned text Sp * value Sp => unexpected_prop (fst kv))
                  (n_properties (s_value n))).
  assert (B1 : logs E (fun c => fold_left (fun c v => emit_error (unexpected_arg v) c)
                 (n_arguments (s_value n)) c)).
  { apply A1. intros v I. eapply HE; [reflexivity|]. now apply value_parts, N2. }
  assert (B2 : logs E (fun c => fold_left (fun c kv => emit_error (unexpected_prop (fst kv)) c)
                 (n_properties (s_value n)) c)).
  { apply A2. intros kv I. eapply HE; [reflexivity|]. specialize (N3 kv I). now inversion N3. }
  pose proof (logs_trans E _ _ B1 B2) as B. unfold node_children in N4.
  destruct (n_children (s_value n)) as [ch|]; [|exact B].
  apply (logs_trans E _ (fun c => fold_left (fun c n => emit_error (unexpected_node n) c) (s_value ch) c) B).
  apply logs_fold. intros m I. eapply HE; [reflexivity|]. specialize (N4 m I). now inversion N4.
Qed.

Lemma duplicate_says (d : child Sp L) n : Forall P (snode_spans n) -> E (duplicate_node d n).
Proof.
  intros N. inversion N as [|x l N1 N2 Ex]; subst. apply node_parts_spans in N2.
  eapply HE; [reflexivity|]. apply N2.
Qed.

Lemma child_branches_says dn n (ds : list (child Sp L)) : Forall P (snode_spans n) ->
  (forall d, In d ds -> aims (f_impl (ch_field d))) -> (forall d, In d ds -> reports E (dn d n)) ->
  forall slots, reports E (child_branches dn ds slots n).
Proof.
  intros N. induction ds as [|d ds IH]; intros H K slots; cbn [child_branches]; [apply says_ok|].
  assert (Ht : forall d, In d ds -> aims (f_impl (ch_field d))) by (intros; apply H; now right).
  assert (Kt : forall d, In d ds -> reports E (dn d n)) by (intros; apply K; now right).
  assert (Hd : aims (f_impl (ch_field d))) by (apply H; now left).
  assert (Kd : reports E (dn d n)) by (apply K; now left).
  destruct slots as [|sl slots]; [apply says_ok|]. destruct sl as [x|xs|x|b].
  - apply says_bind; [now apply ai_insert_child|]. intros [[|] x'].
    + apply says_ok.
    + now apply says_map, IH.
  - destruct (text_eqb _ _); apply says_map; [assumption|now apply IH].
  - destruct (text_eqb _ _); [|now apply says_map, IH].
    destruct x; [now apply says_err, duplicate_says|now apply says_map].
  - destruct (text_eqb _ _); [|now apply says_map, IH].
    pose proof (flag_says n N) as F. pose proof (logs_emit E _ (duplicate_says d n N)) as D.
    destruct b.
    + apply (says_logs E (fun c => emit_error (duplicate_node d n) (check_flag_node n c))
               (fun _ => DOk (true, CBool true :: slots)) (logs_trans E _ _ F D)). discriminate.
    + apply (says_logs E (check_flag_node n) (fun _ => DOk (true, CBool true :: slots)) F). discriminate.
Qed.

Lemma children_says dn dv s es ns :
  (forall m, In m ns -> Forall P (snode_spans m)) ->
  match es with Some sp => P sp | None => forall m, E (DMissingNode m) end ->
  (forall d, In d (st_children s) -> aims (f_impl (ch_field d))) ->
  (forall d n, In d (st_children s) -> Forall P (snode_spans n) -> reports E (dn d n)) ->
  (forall f n, dv = Some f -> Forall P (snode_spans n) -> reports E (f n)) ->
  reports E (decode_children dn dv s es ns).
Proof.
  intros N Hes H1 H2 H3. unfold decode_children. apply says_bind.
  - generalize (map child_start (st_children s)), (@nil (dval L)).
    revert N. induction ns as [|n ns IH]; intros N slots rest; cbn [child_loop]; [apply says_ok|].
    assert (Nn : Forall P (snode_spans n)) by (apply N; now left).
    assert (IH' : forall slots rest,
              reports E (child_loop dn dv (st_children s) slots rest ns)).
    { apply IH. intros m I. apply N. now right. }
    apply says_bind; [apply child_branches_says; auto|]. intros [[|] slots']; [apply IH'|].
    destruct dv as [f|].
    + apply says_bind; [now apply H3|]. intros x. apply IH'.
    + apply says_bind; [|intros x; apply IH'].
      apply says_emit. eapply HE; [reflexivity|]. now inversion Nn.
  - intros [slots rest]. apply says_map, says_collect. intros [d sl] _. cbn [child_finish].
    destruct es as [sp|];
    repeat match goal with
    | |- reports E (d_ok _) => apply says_ok
    | |- reports E (d_err _) => apply says_err; (apply Hes || (eapply HE; [reflexivity|exact Hes]))
    | |- context [match ?x with _ => _ end] => destruct x
    end.
Qed.

Lemma add_field_aims b f o bo (a : field_attrs L) b' :
  add_field (Sp := Sp) kebab b f o bo a = inl b' ->
  Forall (fun g => aims (f_impl g)) (all_fields (build b)) -> aims (f_impl f) ->
  aims_struct (build b').
Proof.
  intros H Hb Hf. destruct b as [ident spans nn tn ar va p vp ch vc ex em].
  unfold aims_struct, all_fields, build in *. cbn in Hb.
  rewrite !Forall_app in Hb. destruct Hb as (H1 & H2 & H3 & H4 & H5 & H6 & H7 & H8 & H9 & H10).
  unfold add_field in H.
  repeat match type of H with
  | context [match fa_mode a with _ => _ end] => destruct (fa_mode a) as [[| | | |[|]| | | | |]|]
  | context [match ?x with _ => _ end] => destruct x
  end; try discriminate; injection H as <-; cbn; rewrite ?map_app, !Forall_app;
    repeat first [assumption|apply conj|apply Forall_cons|apply Forall_app|apply Forall_nil].
Qed.

Lemma unwrap_struct_aims name i (a : field_attrs L) : aims i ->
  aims_struct (unwrap_struct kebab name i a).
Proof.
  intros H. unfold unwrap_struct.
  destruct (add_field kebab (builder_new _) (new_named name i) false false a) as [b|] eqn:Ea.
  - eapply add_field_aims; [exact Ea|constructor|exact H].
  - constructor.
Qed.

Lemma node_child_spans n : Forall P (snode_spans n) ->
  P (s_span n) /\ forall m, In m (node_children (s_value n)) -> Forall P (snode_spans m).
Proof.
  intros N. inversion N as [|x l N1 N2 Ex]; subst. apply node_parts_spans in N2. tauto.
Qed.

Lemma unwrap_says name i : aims i -> forall (a : field_attrs L) n, Forall P (snode_spans n) ->
  reports E (unwrap_fn kebab name i a n).
Proof.
  intros Hi. fix go 1. intros [mode decode unwrap default] n N. cbn [unwrap_fn].
  assert (In_ : forall n, Forall P (snode_spans n) -> reports E
     ((match unwrap with Some u => unwrap_fn kebab name i u | None => ti_node i end) n)).
  { intros m. destruct unwrap as [u|]; [apply go|apply (ai_node _ Hi)]. }
  clear go.
  pose proof (unwrap_struct_aims name i (FieldAttrs mode decode unwrap default) Hi) as Hs.
  revert In_ Hs. generalize (unwrap_struct kebab name i (FieldAttrs mode decode unwrap default)).
  generalize (match unwrap with Some u => unwrap_fn kebab name i u | None => ti_node i end).
  intros inner s In_ Hs.
  apply says_bind; [now apply args_says|]. intros xs.
  apply says_bind; [now apply props_says|]. intros ys.
  apply says_bind.
  - apply aims_parts in Hs. destruct Hs as (_ & _ & _ & _ & _ & Hs & _).
    apply children_says; auto; try apply node_child_spans, N.
    intros f m Ef. destruct (st_var_children s); [|discriminate].
    injection Ef as <-. apply In_.
  - intros zs. destruct (rev (xs ++ ys ++ zs)); [apply says_panic|apply says_ok].
Qed.

Lemma node_fn_says (f : field Sp L) u n : aims (f_impl f) -> Forall P (snode_spans n) ->
  reports E (node_fn kebab f u n).
Proof.
  intros H N. unfold node_fn. destruct u; [now apply unwrap_says|now apply (ai_node _ H)].
Qed.

Lemma struct_children_says s es ns : aims_struct s ->
  (forall m, In m ns -> Forall P (snode_spans m)) ->
  match es with Some sp => P sp | None => forall m, E (DMissingNode m) end ->
  reports E (struct_children kebab s es ns).
Proof.
  intros H N Hes. apply aims_parts in H. destruct H as (_ & _ & _ & _ & _ & H1 & H2).
  apply children_says; auto.
  - intros d n I Nn. apply node_fn_says; auto.
  - intros f n Ef Nn. unfold var_child_fn in Ef. destruct (st_var_children s) as [[g u]|]; [|discriminate].
    injection Ef as <-. apply node_fn_says; [eapply H2; reflexivity|exact Nn].
Qed.

Lemma struct_node_says named s n : aims_struct s -> Forall P (snode_spans n) ->
  reports E (struct_node kebab named s n).
Proof.
  intros H N. destruct (node_child_spans n N) as [N1 N2]. unfold struct_node.
  apply says_bind; [now apply specials_says|]. intros ws.
  apply says_bind; [now apply args_says|]. intros xs.
  apply says_bind; [now apply props_says|]. intros ys.
  apply says_bind; [now apply struct_children_says|]. intros zs. apply says_ok.
Qed.

Lemma insert_child_says n (ds : list (child Sp L)) : Forall P (snode_spans n) ->
  (forall d, In d ds -> aims (f_impl (ch_field d))) ->
  forall self, reports E (insert_child kebab ds self n).
Proof.
  intros N. induction ds as [|d ds IH]; intros H self; cbn [insert_child]; [apply says_ok|].
  assert (Ht : forall d, In d ds -> aims (f_impl (ch_field d))) by (intros; apply H; now right).
  assert (Hd : aims (f_impl (ch_field d))) by (apply H; now left).
  pose proof (duplicate_says d n N) as D.
  destruct (ch_mode d).
  - destruct (text_eqb _ _); [|now apply IH]. apply says_bind.
    + destruct (get_field _ self) as [[]|]; first [apply says_panic|apply says_ok|now apply says_emit].
    + intros _. now apply says_map, node_fn_says.
  - destruct (get_field _ self); [|apply says_panic].
    apply says_bind; [now apply ai_insert_child|]. intros [[|] x']; [apply says_ok|now apply IH].
  - destruct (text_eqb _ _); [apply says_panic|now apply IH].
  - destruct (text_eqb _ _); [|now apply IH]. pose proof (flag_says n N) as F.
    pose proof (logs_trans E _ _ F (logs_emit E _ D)) as G. intros c.
    specialize (F c). specialize (G c).
    destruct (get_field _ self) as [[| [|] | | | | | |]|]; cbn [fst snd];
      (split; [assumption|discriminate]).
Qed.

Lemma insert_property_says name v (ps : list (prop Sp L)) : Forall P (property_spans (name, v)) ->
  (forall p, In p ps -> aims (f_impl (pr_field p))) ->
  forall self, reports E (insert_property ps self name v).
Proof.
  intros V. assert (V' : Forall P (value_spans v)) by now inversion V.
  induction ps as [|p ps IH]; intros H self; cbn [insert_property]; [apply says_ok|].
  assert (Ht : forall p, In p ps -> aims (f_impl (pr_field p))) by (intros; apply H; now right).
  assert (Hp : aims (f_impl (pr_field p))) by (apply H; now left).
  destruct (pr_flatten p).
  - destruct (get_field _ self); [|apply says_panic].
    apply says_bind; [now apply ai_insert_property|]. intros [[|] x']; [apply says_ok|now apply IH].
  - destruct (text_eqb _ _); [now apply says_map, value_says|now apply IH].
Qed.

Lemma on_self_says f self : (forall fs, reports E (f fs)) ->
  reports E (on_self (Sp := Sp) (L := L) f self).
Proof.
  intros H. destruct self; cbn [on_self]; try apply says_panic. now apply says_map.
Qed.

Lemma item_says e v s n : aims_struct s -> Forall P (snode_spans n) ->
  reports E (decode_enum_item kebab e v s n).
Proof.
  intros H N. destruct (node_child_spans n N) as [N1 N2]. unfold decode_enum_item.
  apply says_bind; [now apply args_says|]. intros xs.
  apply says_bind; [now apply props_says|]. intros ys.
  apply says_bind; [now apply struct_children_says|]. intros zs. apply says_ok.
Qed.

Definition aims_kind (k : variant_kind Sp L) : Prop :=
  match k with
  | VkUnit => True
  | VkNested _ i => aims i
  | VkTuple s | VkNamed s => aims_struct s
  end.

Lemma variant_says e (v : variant Sp L) f n : aims_kind (va_kind v) -> Forall P (snode_spans n) ->
  variant_node kebab e v = Some f -> reports E (f n).
Proof.
  unfold variant_node. destruct (va_kind v) as [|[|] i|s|s]; intros H N Ef.
  - injection Ef as <-.
    apply (says_logs E (check_flag_node n) (fun _ => DOk (VVariant e (va_ident v) []))
             (flag_says n N)). discriminate.
  - injection Ef as <-. destruct (has_content (s_value n)); [|apply says_ok].
    now apply says_map, (ai_node _ H).
  - injection Ef as <-. now apply says_map, (ai_node _ H).
  - destruct (no_specials s && tuple_ok s && unwraps_compile kebab s); [|discriminate].
    injection Ef as <-. now apply item_says.
  - discriminate.
Qed.

(** What a definition has for its types. *)
Definition aims_definition (df : definition Sp L) : Prop :=
  match df with
  | DefStruct s | DefTuple s | DefUnit s => aims_struct s
  | DefNewType _ _ i => aims i
  | DefEnum _ vs => Forall (fun v => aims_kind (va_kind v)) vs
  end.

Lemma decoder_node_says (df : definition Sp L) d n : aims_definition df ->
  emit_decoder kebab df = Some d -> Forall P (snode_spans n) -> reports E (dr_node d n).
Proof.
  destruct df as [s|s|ident o i|s|ident vs]; cbn [emit_decoder aims_definition]; intros H Ed N;
    try (unfold emit_struct in Ed; destruct (_ && _) in Ed; [|discriminate]; injection Ed as <-;
         cbn [dr_node]; now apply struct_node_says).
  - injection Ed as <-. cbn [dr_node]. unfold new_type_node.
    destruct (has_content (s_value n)); [|apply says_ok]. now apply says_map, (ai_node _ H).
  - destruct (variant_branches kebab ident vs) as [bs|] eqn:B; [|discriminate].
    injection Ed as <-. cbn [dr_node]. unfold enum_node.
    assert (A : Forall (fun b => reports E (snd b n)) bs).
    { revert bs B. induction H as [|v vs Hv H IH]; intros bs B; cbn [variant_branches] in B.
      - injection B as <-. constructor.
      - destruct (variant_node kebab ident v) as [b|] eqn:V; [|discriminate].
        destruct (variant_branches kebab ident vs) as [bs'|]; [|discriminate].
        injection B as <-. constructor; [|auto]. eapply variant_says; eauto. }
    clear B. generalize (expected_names (map fst bs)).
    induction A as [|[nm b] bs' Hb A IH]; intros e; cbn [match_name].
    + apply says_err. eapply HE; [reflexivity|].
      inversion N as [|x l N1 N2 Ex]; subst. apply node_parts_spans in N2. apply N2.
    + destruct (text_eqb _ _); [exact Hb|apply IH].
Qed.

Lemma decoder_children_says (df : definition Sp L) d f ns : aims_definition df ->
  (forall m, E (DMissingNode m)) -> emit_decoder kebab df = Some d -> dr_children d = Some f ->
  (forall m, In m ns -> Forall P (snode_spans m)) -> reports E (f ns).
Proof.
  intros H M Ed Ef N.
  assert (K : forall named s, aims_struct s -> emit_struct kebab named s = Some d -> reports E (f ns)).
  { intros named s Hs Es. unfold emit_struct in Es. destruct (_ && _) in Es; [|discriminate].
    injection Es as <-. cbn [dr_children] in Ef. destruct (_ && _) in Ef; [|discriminate].
    injection Ef as <-. unfold struct_document.
    apply says_bind; [now apply struct_children_says|]. intros. apply says_ok. }
  destruct df as [s|s|ident o i|s|ident vs]; cbn [emit_decoder aims_definition] in *; eauto.
  - injection Ed as <-. discriminate.
  - destruct (variant_branches kebab ident vs); [|discriminate]. injection Ed as <-. discriminate.
Qed.

Lemma decoder_insert_child_says (df : definition Sp L) d f x n : aims_definition df ->
  emit_decoder kebab df = Some d -> dr_insert_child d = Some f ->
  Forall P (snode_spans n) -> reports E (f x n).
Proof.
  intros H Ed Ef N.
  assert (K : forall named s, aims_struct s -> emit_struct kebab named s = Some d -> reports E (f x n)).
  { intros named s Hs Es. unfold emit_struct in Es. destruct (_ && _) in Es; [|discriminate].
    injection Es as <-. cbn [dr_insert_child] in Ef. destruct (partial_compatible s); [|discriminate].
    injection Ef as <-. apply on_self_says. intros fs. apply insert_child_says; [exact N|].
    apply aims_parts in Hs. apply Hs. }
  destruct df as [s|s|ident o i|s|ident vs]; cbn [emit_decoder aims_definition] in *; eauto.
  - injection Ed as <-. discriminate.
  - destruct (variant_branches kebab ident vs); [|discriminate]. injection Ed as <-. discriminate.
Qed.

Lemma decoder_insert_property_says (df : definition Sp L) d f x k v : aims_definition df ->
  emit_decoder kebab df = Some d -> dr_insert_property d = Some f ->
  Forall P (property_spans (k, v)) -> reports E (f x k v).
Proof.
  intros H Ed Ef N.
  assert (K : forall named s, aims_struct s -> emit_struct kebab named s = Some d -> reports E (f x k v)).
  { intros named s Hs Es. unfold emit_struct in Es. destruct (_ && _) in Es; [|discriminate].
    injection Es as <-. cbn [dr_insert_property] in Ef. destruct (partial_compatible s); [|discriminate].
    injection Ef as <-. apply on_self_says. intros fs. apply insert_property_says; [exact N|].
    apply aims_parts in Hs. apply Hs. }
  destruct df as [s|s|ident o i|s|ident vs]; cbn [emit_decoder aims_definition] in *; eauto.
  - injection Ed as <-. discriminate.
  - destruct (variant_branches kebab ident vs); [|discriminate]. injection Ed as <-. discriminate.
Qed.

Lemma add_fields_aims : forall (fs : list (src_field Sp L)) b idx b',
  add_fields kebab b idx fs = inl b' -> aims_struct (build b) ->
  Forall (fun f => aims (sf_impl f)) fs -> aims_struct (build b').
Proof.
  induction fs as [|f fs IH]; intros b idx b' H Hb Hf; cbn [add_fields] in H.
  - now injection H as <-.
  - inversion Hf as [|? ? H1 H2]; subst.
    destruct (attrs_update _) as [a em].
    destruct (add_field kebab _ _ _ _ a) as [b1|] eqn:Ea; [|discriminate].
    eapply IH; [exact H| |exact H2].
    apply add_field_aims in Ea; [exact Ea| |exact H1]. now destruct b.
Qed.

Lemma struct_new_aims ident (fs : list (src_field Sp L)) s em :
  struct_new kebab ident fs = inl (s, em) -> Forall (fun f => aims (sf_impl f)) fs ->
  aims_struct s.
Proof.
  unfold struct_new. destruct (add_fields _ _ _ _) as [b|] eqn:Ea; [|discriminate].
  intros H. injection H as <- _. eapply add_fields_aims; [exact Ea|]. constructor.
Qed.

Lemma lone_aims (s : struct Sp L) f o : aims_struct s -> lone_extra s = Some (f, o) ->
  aims (f_impl f).
Proof.
  unfold aims_struct, lone_extra. intros H K. rewrite Forall_forall in H. apply H.
  destruct (all_fields s) as [|g [|]] eqn:A; try discriminate.
  destruct (st_extra s) as [|x [|]] eqn:X; try discriminate. injection K as ->.
  rewrite <- A. unfold all_fields. rewrite X. rewrite !app_assoc. apply in_or_app. right. now left.
Qed.

Lemma variant_aims (v : src_variant Sp L) x em :
  Forall aims (map sf_impl (fields_in (sv_fields v))) -> variant_new kebab v = inl (x, em) ->
  aims_kind (va_kind x).
Proof.
  unfold variant_new. intros H K. rewrite Forall_map in H.
  destruct (sv_fields v) as [fs|fs|]; cbn [fields_in] in H.
  - destruct (struct_new kebab _ fs) as [[s em']|] eqn:N; [|discriminate].
    injection K as <- _. cbn. eapply struct_new_aims; eauto.
  - destruct (struct_new kebab _ fs) as [[s em']|] eqn:N; [|discriminate].
    injection K as <- _. cbn.
    apply struct_new_aims in N; auto.
    destruct (lone_extra s) as [[f o]|] eqn:Lo; cbn; [|auto].
    eapply lone_aims; eauto.
  - injection K as <- _. exact I.
Qed.

Lemma enum_aims : forall (vs : list (src_variant Sp L)) l em,
  Forall aims (flat_map (fun v => map sf_impl (fields_in (sv_fields v))) vs) ->
  enum_new kebab vs = inl (l, em) -> Forall (fun v => aims_kind (va_kind v)) l.
Proof.
  induction vs as [|v vs IH]; intros l em H K; cbn [enum_new] in K.
  - injection K as <- _. constructor.
  - cbn [flat_map] in H. apply Forall_app in H. destruct H as [H1 H2].
    destruct (variant_skip (sv_attrs v)).
    + destruct (enum_new kebab vs) as [[l' em']|]; [|discriminate]. injection K as <- _. eauto.
    + destruct (variant_new kebab v) as [[x em1]|] eqn:V; [|discriminate].
      destruct (enum_new kebab vs) as [[l' em']|]; [|discriminate]. injection K as <- _.
      constructor; [|eauto]. eapply variant_aims; eauto.
Qed.

Lemma derive_aims (i : src_item Sp L) df em :
  Forall aims (types_in i) -> definition_parse kebab i = inl (df, em) -> aims_definition df.
Proof.
  intros H Pa.
  destruct i as [ident cont [fs|fs|]|ident cont vs]; cbn [definition_parse types_in fields_in] in *;
    rewrite ?Forall_map in H.
  - destruct (struct_new kebab _ fs) as [[s em']|] eqn:N; [|discriminate].
    injection Pa as <- _. eapply struct_new_aims; eauto.
  - destruct (struct_new kebab _ fs) as [[s em']|] eqn:N; [|discriminate].
    injection Pa as <- _. apply struct_new_aims in N; auto.
    destruct (lone_extra s) as [[f o]|] eqn:Lo; [|auto].
    eapply lone_aims; eauto.
  - destruct (struct_new kebab ident []) as [[s em']|] eqn:N; [|discriminate].
    injection Pa as <- _. apply struct_new_aims in N; auto.
  - destruct (enum_new kebab vs) as [[l em']|] eqn:N; [|discriminate].
    injection Pa as <- _. apply (enum_aims vs l em' H N).
Qed.

End Derived.

Lemma in_all {A} (l : list A) : Forall (fun x => In x l) l.
Proof. now apply Forall_forall. Qed.

Lemma in_nodes {Sp} (ns : list (snode Sp)) m : In m ns ->
  Forall (fun sp => In sp (nodes_spans ns)) (snode_spans m).
Proof.
  intros I. apply Forall_forall. intros sp J. apply in_flat_map. eauto.
Qed.

(** If the errors of the types of the fields point, so do those of the derived decoder. *)
Lemma derive_points Sp L kebab (i : src_item Sp L) d :
  Forall pointing (types_in i) -> decode_derive kebab i = Some d -> pointing_derived d.
Proof.
  unfold decode_derive. intros H Ed.
  destruct (definition_parse kebab i) as [[df [|]]|] eqn:Pa; try discriminate.
  assert (A : forall (P : Sp -> Prop) (E : derror Sp -> Prop), (forall e sp, error_span e = Some sp -> P sp -> E e) ->
            aims_definition P E df).
  { intros P E HE. eapply derive_aims; [|exact Pa].
    eapply Forall_impl; [|exact H]. intros j. now apply pointing_aims. }
  assert (HE : forall l (e : derror Sp) sp, error_span e = Some sp -> In sp l -> points_at l e).
  { intros l e sp E I. exists sp. auto. }
  split.
  - intros n. eapply (decoder_node_says kebab (fun sp => In sp (snode_spans n))); eauto using in_all.
  - intros f Ef ns.
    assert (HE' : forall (e : derror Sp) sp, error_span e = Some sp -> In sp (nodes_spans ns) ->
              points_or_missing (nodes_spans ns) e) by (intros; left; eauto).
    eapply (decoder_children_says kebab (fun sp => In sp (nodes_spans ns))); eauto using in_nodes.
    intros m. right. eauto.
  - intros f Ef x n.
    eapply (decoder_insert_child_says kebab (fun sp => In sp (snode_spans n))); eauto using in_all.
  - intros f Ef x k v.
    eapply (decoder_insert_property_says kebab (fun sp => In sp (property_spans (k, v))));
      eauto using in_all.
Qed.

(** ** The decoders of the library *)

Section Library.
Context {Sp : Type}.

Lemma mono_says {A} (l l' : list Sp) (m : dec Sp A) : incl l l' ->
  reports (points_at l) m -> reports (points_at l') m.
Proof.
  intros I. apply reports_mono. intros e (sp & H & K). exists sp. auto.
Qed.

Lemma mono_logs (l l' : list Sp) f : incl l l' -> logs (points_at l) f -> logs (points_at l') f.
Proof.
  intros I H c. destruct (H c) as (es & H1 & H2). exists es. split; [exact H1|].
  eapply Forall_impl; [|exact H2]. intros e (sp & K & J). exists sp. auto.
Qed.

Lemma here (sp : Sp) (e : derror Sp) : error_span e = Some sp -> points_at [sp] e.
Proof. intros H. exists sp. split; [exact H|now left]. Qed.

Lemma default_points {A} tc (rd : spanned literal Sp -> dec Sp A) :
  (forall ty, logs (points_at (match ty with Some t => [s_span t] | None => [] end)) (tc ty)) ->
  (forall v, reports (points_at [s_span v]) (rd v)) -> pointing_scalar (scalar_default tc rd).
Proof.
  intros H1 H2. split; auto. intros v c. cbn [scalar_default sc_decode]. unfold default_decode.
  assert (J : incl (match v_type_name v with Some t => [s_span t] | None => [] end) (value_spans v)).
  { intros x I. apply in_or_app. now left. }
  destruct (mono_logs _ _ _ J (H1 (v_type_name v)) c) as (es & E1 & E2).
  assert (I : incl [s_span (v_literal v)] (value_spans v)).
  { intros x I. apply in_or_app. now right. }
  destruct (mono_says _ _ _ I (H2 (v_literal v)) (tc (v_type_name v) c)) as [(es' & E3 & E4) E5].
  split; [|exact E5]. exists (es ++ es'). rewrite E3, E1, app_assoc. split; [reflexivity|].
  apply Forall_app. now split.
Qed.

Lemma no_type_check_points name ty :
  logs (points_at (match ty with Some t => [s_span t] | None => [] end)) (no_type_check (Sp := Sp) name ty).
Proof. destruct ty; [apply logs_emit; now apply here|apply logs_id]. Qed.

Lemma number_type_check_points marker name ty :
  logs (points_at (match ty with Some t => [s_span t] | None => [] end))
    (number_type_check (Sp := Sp) marker name ty).
Proof.
  destruct ty as [t|]; unfold number_type_check; [|apply logs_id].
  destruct (typename_as_builtin (s_value t)); [destruct (builtin_eqb _ _); [apply logs_id|]|];
    apply logs_emit; now apply here.
Qed.

Ltac raw := intros c; split;
  [first [exists []; rewrite app_nil_r; split; [reflexivity|constructor]
         |eexists [_]; split; [reflexivity|constructor; [now apply here|constructor]]]
  |intros e K; first [discriminate K|injection K as <-; now apply here]].

Lemma string_points t : pointing_scalar (Sp := Sp) (string_impl t).
Proof.
  apply default_points; [apply no_type_check_points|]. intros v. unfold string_raw_decode.
  destruct (s_value v); raw.
Qed.

Lemma bool_points : pointing_scalar (Sp := Sp) bool_impl.
Proof.
  apply default_points; [apply no_type_check_points|]. intros v. unfold bool_raw_decode.
  destruct (s_value v); raw.
Qed.

Lemma int_points t : pointing_scalar (Sp := Sp) (int_impl t).
Proof.
  apply default_points; [apply number_type_check_points|]. intros v. unfold int_raw_decode.
  destruct (s_value v); try destruct (int_try_from _ _ _); raw.
Qed.

Lemma float_points {F} t (from_str : text -> option F) zero :
  pointing_scalar (Sp := Sp) (float_impl t from_str zero).
Proof.
  apply default_points; [apply number_type_check_points|]. intros v. unfold float_raw_decode.
  destruct (s_value v); try destruct (from_str _); raw.
Qed.

Lemma scalar_enum_points {A} name (vs : list (text * A)) :
  pointing_scalar (Sp := Sp) (scalar_enum_impl name vs).
Proof.
  apply default_points; [apply no_type_check_points|]. intros v. unfold scalar_enum_raw.
  destruct (s_value v); try destruct (match_name _ _); raw.
Qed.

Lemma literal_points : pointing_scalar (Sp := Sp) literal_impl.
Proof.
  apply default_points.
  - intros ty. apply logs_id.
  - intros v. apply says_ok.
Qed.

Lemma option_points {A} (i : scalar_impl Sp A) : pointing_scalar i -> pointing_scalar (option_impl i).
Proof.
  intros [H1 H2 H3]. apply default_points; [exact H1|]. intros v.
  destruct (s_value v); first [apply says_ok|apply says_map; apply H2].
Qed.

Lemma wrapped_points {A B} (f : A -> B) (i : scalar_impl Sp A) :
  pointing_scalar i -> pointing_scalar (wrapped_impl f i).
Proof.
  intros [H1 H2 H3]. apply default_points; [exact H1|]. intros v. apply says_map, H2.
Qed.

Lemma spanned_points {A Q} (ds : span_impl Sp Q) (i : scalar_impl Sp A) :
  (forall sp, reports (points_at [sp]) (d_pure (ds sp))) -> pointing_scalar i ->
  pointing_scalar (spanned_impl ds i).
Proof.
  intros Hs [H1 H2 H3]. apply default_points; [exact H1|]. intros v. apply says_bind; [apply H2|].
  intros a c. specialize (Hs (s_span v) c). unfold d_pure in Hs.
  destruct (ds (s_span v) c). split; [apply Hs|discriminate].
Qed.

Lemma vec_points {A} (d : node_impl Sp A) ns :
  (forall n, reports (points_at (snode_spans n)) (d n)) ->
  reports (points_at (nodes_spans ns)) (vec_children d ns).
Proof.
  intros H. unfold vec_children. generalize (@nil A).
  assert (G : forall n, In n ns -> reports (points_at (nodes_spans ns)) (d n)).
  { intros n I. eapply mono_says; [|apply H]. intros sp J. apply in_flat_map. eauto. }
  revert G. generalize (nodes_spans ns). intros l. induction ns as [|n ns IH]; intros G acc;
    cbn [vec_loop]; [apply says_ok|].
  assert (IH' : forall acc, reports (points_at l) (vec_loop d ns acc)).
  { apply IH. intros m I. apply G. now right. }
  specialize (G n (or_introl eq_refl)). intros c. destruct (G c) as [(es & G1 & G2) G3].
  destruct (d n c) as [c' [a|e|]]; cbn [fst snd] in *.
  - destruct (IH' (acc ++ [a]) c') as [(es' & I1 & I2) I3].
    split; [|exact I3]. exists (es ++ es'). rewrite I1, G1, app_assoc. split; [reflexivity|].
    apply Forall_app. now split.
  - destruct (IH' acc (emit_error e c')) as [(es' & I1 & I2) I3]. split; [|exact I3].
    exists (es ++ [e] ++ es'). rewrite I1. cbn [emit_error c_errors]. rewrite G1, <- !app_assoc.
    split; [reflexivity|]. apply Forall_app. split; [exact G2|]. constructor; auto.
  - split; [eauto|discriminate].
Qed.

End Library.
