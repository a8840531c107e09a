(** Properties of the decoding layer that do not involve the derive. *)

From Coq Require Import NArith ZArith List Bool Lia String.
From Verif Require Import Chars Ast Errors Chumsky Spans Grammar Kdl DocSafe PropMap LexIdent
  Decode Scalar Containers DecodeSpec IntProps.
Import ListNotations.
Local Open Scope N_scope.

(** ** C24 *)

Section Parse.
Context {Sp A : Type}.
Implicit Types (d : children_impl Sp A) (f : context Sp -> context Sp).

Lemma parse_value_iff ast f d v :
  parse_with_context ast f d = Value_of v <->
  exists doc c, ast = Parsed doc /\ d doc (f context_new) = (c, DOk v) /\ c_errors c = [].
Proof.
  unfold parse_with_context. destruct ast as [doc|errs|].
  - destruct (d doc (f context_new)) as [c [a|e|]] eqn:D; unfold has_errors.
    + destruct (c_errors c) as [|e es] eqn:E.
      * split.
        -- intros K. injection K as ->. exists doc, c. auto.
        -- intros (doc' & c' & K1 & K2 & _). congruence.
      * split; [discriminate|]. intros (doc' & c' & K1 & K2 & K3). congruence.
    + split; [discriminate|]. intros (doc' & c' & K1 & K2 & K3). congruence.
    + split; [discriminate|]. intros (doc' & c' & K1 & K2 & K3). congruence.
  - split; [discriminate|]. intros (doc' & c' & K1 & K2 & K3). discriminate.
  - split; [discriminate|]. intros (doc' & c' & K1 & K2 & K3). discriminate.
Qed.

Lemma parse_errors_iff ast f d es :
  parse_with_context ast f d = Decode_errors es <->
  es <> [] /\ exists doc c, ast = Parsed doc
    /\ ((exists v, d doc (f context_new) = (c, DOk v) /\ es = c_errors c)
        \/ (exists e, d doc (f context_new) = (c, DErr e) /\ es = c_errors c ++ [e])).
Proof.
  unfold parse_with_context. destruct ast as [doc|errs|].
  - destruct (d doc (f context_new)) as [c [a|e|]] eqn:D; unfold has_errors.
    + destruct (c_errors c) as [|e es'] eqn:E.
      * split; [discriminate|]. intros (N & doc' & c' & K1 & [(v & K2 & K3)|(e & K2 & K3)]);
          congruence.
      * split.
        -- intros K. injection K as <-. unfold into_errors. rewrite E. split; [discriminate|].
           exists doc, c. split; auto. left. exists a. auto.
        -- unfold into_errors.
           intros (N & doc' & c' & K1 & [(v & K2 & K3)|(e' & K2 & K3)]); congruence.
    + split.
      * intros K. injection K as <-. split; [cbn; destruct (c_errors c); discriminate|].
        exists doc, c. split; auto. right. exists e. auto.
      * intros (N & doc' & c' & K1 & [(v & K2 & K3)|(e' & K2 & K3)]).
        -- congruence.
        -- injection K1 as <-. rewrite D in K2. injection K2 as <- <-. subst es. reflexivity.
    + split; [discriminate|].
      intros (N & doc' & c' & K1 & [(v & K2 & K3)|(e' & K2 & K3)]); congruence.
  - split; [discriminate|]. intros (N & doc' & c' & K1 & _). discriminate.
  - split; [discriminate|]. intros (N & doc' & c' & K1 & _). discriminate.
Qed.

Lemma parse_syntax_iff ast f d es :
  parse_with_context ast f d = Parse_errors es <-> ast = Rejected es.
Proof.
  unfold parse_with_context. destruct ast as [doc|errs|].
  - destruct (d doc (f context_new)) as [c [a|e|]]; [destruct (has_errors c)| |];
      split; discriminate.
  - split; intros K; injection K as ->; reflexivity.
  - split; discriminate.
Qed.

End Parse.

(** No result is missing: over the real parser, a panic is the decoder's. *)
Lemma parse_total {A} t f (d : children_impl span A) :
  (forall doc c, snd (d doc c) <> DPanic) ->
  (exists v, parse_with_context (parse_ast_span t) f d = Value_of v)
  \/ (exists es, es <> [] /\ parse_with_context (parse_ast_span t) f d = Parse_errors es)
  \/ (exists es, es <> [] /\ parse_with_context (parse_ast_span t) f d = Decode_errors es).
Proof.
  intros H. destruct (parse_span_returns t) as [[doc P]|[errs [N P]]]; rewrite P.
  - unfold parse_with_context. specialize (H doc (f context_new)).
    destruct (d doc (f context_new)) as [c [a|e|]]; cbn in H; [| |contradiction].
    + unfold has_errors. destruct (c_errors c) as [|e es] eqn:E; [eauto|].
      right. right. exists (c_errors c). unfold into_errors. rewrite E. split; [discriminate|auto].
    + right. right. exists (c_errors c ++ [e]). split; auto. destruct (c_errors c); discriminate.
  - right. left. exists errs. auto.
Qed.

(** ** C25 *)

Lemma ext_get_insert k v m k' :
  ext_get k' (ext_insert k v m) = if k' =? k then Some v else ext_get k' m.
Proof.
  induction m as [|[a b] m IH]; cbn [ext_insert ext_get].
  - destruct (k' =? k); reflexivity.
  - destruct (N.eqb_spec k a) as [->|N]; cbn [ext_get].
    + destruct (k' =? a); reflexivity.
    + rewrite IH. destruct (N.eqb_spec k' a) as [->|N']; auto.
      destruct (N.eqb_spec a k); [congruence|auto].
Qed.

Section Ctx.
Context {Sp : Type}.

Lemma ctx_errors (ops : list (ctx_op Sp)) : forall c,
  c_errors (fold_left do_op ops c) = c_errors c ++ emitted ops.
Proof.
  induction ops as [|o ops IH]; intros c; cbn [fold_left].
  - unfold emitted. cbn. rewrite app_nil_r. reflexivity.
  - rewrite IH. destruct o as [ty v|e]; cbn.
    + reflexivity.
    + rewrite <- app_assoc. reflexivity.
Qed.

Lemma ctx_get_snoc (ops : list (ctx_op Sp)) o c ty :
  context_get ty (fold_left do_op (ops ++ [o]) c) =
  match o with
  | Op_set ty' v => if ty =? ty' then Some v else context_get ty (fold_left do_op ops c)
  | Op_emit _ => context_get ty (fold_left do_op ops c)
  end.
Proof.
  rewrite fold_left_app. cbn [fold_left]. destruct o as [ty' v|e]; cbn [do_op].
  - unfold context_get, context_set. cbn [c_ext]. apply ext_get_insert.
  - reflexivity.
Qed.

Lemma ctx_get (ops : list (ctx_op Sp)) ty :
  last_set ty ops (context_get ty (fold_left do_op ops context_new)).
Proof.
  induction ops as [|o ops IH] using rev_ind.
  - apply LS_none. intros v [].
  - rewrite ctx_get_snoc.
    assert (K : (forall w, o <> Op_set ty w) ->
                last_set ty (ops ++ [o]) (context_get ty (fold_left do_op ops context_new))).
    { intros N. destruct IH as [ops H|before v after H].
      - apply LS_none. intros v I. apply in_app_iff in I as [I|[I|[]]]; [eapply H; eauto|].
        eapply N; eauto.
      - rewrite <- app_assoc. cbn [app]. apply LS_some.
        intros w I. apply in_app_iff in I as [I|[I|[]]]; [eapply H; eauto|]. eapply N; eauto. }
    destruct o as [ty' v|e].
    + destruct (N.eqb_spec ty ty') as [<-|N].
      * apply (LS_some ty ops v []). intros w [].
      * apply K. intros w E. injection E as E _. auto.
    + apply K. discriminate.
Qed.

Lemma last_set_fun ty (ops : list (ctx_op Sp)) a b :
  last_set ty ops a -> last_set ty ops b -> a = b.
Proof.
  intros H1 H2. destruct H1 as [ops H|before v after H].
  - inversion H2 as [|b' v a' H' E]; subst; auto.
    exfalso. apply (H v). apply in_app_iff. right. left. reflexivity.
  - inversion H2 as [ops' H' E|b' v' a' H' E]; subst.
    + exfalso. apply (H' v). apply in_app_iff. right. left. reflexivity.
    + f_equal. clear H2. revert b' E. induction before as [|o before IH]; intros b' E.
      * destruct b' as [|o' b']; cbn in E.
        -- injection E. auto.
        -- injection E as E1 E2. exfalso. apply (H v'). rewrite <- E2.
           apply in_app_iff. right. left. reflexivity.
      * destruct b' as [|o' b']; cbn in E.
        -- injection E as E1 E2. exfalso. apply (H' v). rewrite E2.
           apply in_app_iff. right. left. reflexivity.
        -- injection E as E1 E2. apply (IH b' E2).
Qed.

End Ctx.

(** ** C26 *)

Lemma vec_pass {Sp A} (d : node_impl Sp A) ns : forall c c' out es acc,
  one_pass d ns c out es c' -> vec_loop d ns acc c = (c', DOk (acc ++ out)).
Proof.
  induction ns as [|n ns IH]; intros c c' out es acc H.
  - inversion H; subst. cbn [vec_loop]. rewrite app_nil_r. reflexivity.
  - inversion H as [|n' ns' c0 c1 a out' es' c2 D H'|n' ns' c0 c1 e out' es' c2 D H']; subst;
      cbn [vec_loop]; rewrite D.
    + rewrite (IH _ _ _ _ _ H'). rewrite <- app_assoc. reflexivity.
    + unfold emit_error. rewrite (IH _ _ _ _ _ H'). reflexivity.
Qed.

Lemma vec_pass_exists {Sp A} (d : node_impl Sp A) : (forall n c, snd (d n c) <> DPanic) ->
  forall ns c, exists out es c', one_pass d ns c out es c'.
Proof.
  intros NP. induction ns as [|n ns IH]; intros c.
  - exists [], [], c. constructor.
  - destruct (d n c) as [c1 [a|e|]] eqn:D.
    + destruct (IH c1) as (out & es & c' & H). exists (a :: out), es, c'. econstructor; eauto.
    + destruct (IH (Context (c_errors c1 ++ [e]) (c_ext c1))) as (out & es & c' & H).
      exists out, (e :: es), c'. eapply OP_err; eauto.
    + exfalso. apply (NP n c). rewrite D. reflexivity.
Qed.

Lemma vec_children_pass {Sp A} (d : node_impl Sp A) ns c :
  (forall n c, snd (d n c) <> DPanic) ->
  exists out es c', one_pass d ns c out es c' /\ vec_children d ns c = (c', DOk out).
Proof.
  intros NP. destruct (vec_pass_exists d NP ns c) as (out & es & c' & H).
  exists out, es, c'. split; auto. unfold vec_children. rewrite (vec_pass d ns _ _ _ _ [] H).
  reflexivity.
Qed.

Lemma sub_refl {X} (l : list X) : subsequence l l.
Proof. induction l; constructor; auto. Qed.

Lemma sub_prefix {X} (p a b : list X) : subsequence a b -> subsequence a (p ++ b).
Proof. intros H. induction p; cbn; [auto|constructor; auto]. Qed.

Lemma pass_errors {Sp A} (d : node_impl Sp A) ns : (forall n, adds_only (d n)) ->
  forall c out es c', one_pass d ns c out es c' ->
  exists l, c_errors c' = c_errors c ++ l /\ subsequence es l.
Proof.
  intros M. induction ns as [|n ns IH]; intros c out es c' H.
  - inversion H; subst. exists []. rewrite app_nil_r. split; [auto|constructor].
  - inversion H as [|n' ns' c0 c1 a out' es' c2 D H'|n' ns' c0 c1 e out' es' c2 D H']; subst;
      destruct (M n c) as [l0 E0]; rewrite D in E0; cbn [fst] in E0;
      apply IH in H' as (l & E & S).
    + exists (l0 ++ l). rewrite E, E0, app_assoc. split; auto. apply sub_prefix. auto.
    + cbn [c_errors] in E. exists (l0 ++ e :: l). rewrite E, E0, <- !app_assoc. split; auto.
      apply sub_prefix. constructor. auto.
Qed.

(** ** C31 *)

Lemma emits_fold {Sp X} (f : X -> derror Sp) l : forall c,
  fold_left (fun c x => emit_error (f x) c) l c
  = Context (c_errors c ++ map f l) (c_ext c).
Proof.
  induction l as [|x l IH]; intros c; cbn [fold_left map].
  - rewrite app_nil_r. destruct c; reflexivity.
  - rewrite IH. cbn. rewrite <- app_assoc. reflexivity.
Qed.

Lemma flag_node {Sp} (n : snode Sp) c :
  check_flag_node n c = Context (c_errors c ++ flag_errors (s_value n)) (c_ext c).
Proof.
  unfold check_flag_node, flag_errors, node_children.
  rewrite (emits_fold unexpected_arg).
  rewrite (emits_fold (fun kv => unexpected_prop (fst kv))).
  cbn [c_errors c_ext].
  destruct (n_children (s_value n)) as [ch|].
  - rewrite (emits_fold unexpected_node). cbn [c_errors c_ext]. rewrite <- !app_assoc.
    reflexivity.
  - cbn [map]. rewrite app_nil_r, <- !app_assoc. reflexivity.
Qed.

Lemma flag_clean {Sp} (n : snode Sp) c :
  check_flag_node n c = c <->
  n_arguments (s_value n) = [] /\ n_properties (s_value n) = [] /\ node_children (s_value n) = [].
Proof.
  rewrite flag_node. unfold flag_errors. split.
  - intros H. apply (f_equal c_errors) in H. cbn [c_errors] in H.
    rewrite <- (app_nil_r (c_errors c)) in H at 2. apply app_inv_head in H.
    apply app_eq_nil in H as [H1 H]. apply app_eq_nil in H as [H2 H3].
    apply map_eq_nil in H1, H2, H3. auto.
  - intros (-> & -> & ->). cbn. rewrite app_nil_r. destruct c; reflexivity.
Qed.
