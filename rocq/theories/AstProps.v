(** Decoding into the types of the syntax tree. *)

From Coq Require Import NArith List Bool Lia.
From Verif Require Import Chars Ast Errors Chumsky Spans Grammar Kdl KdlText PropMap PrintMeans
  Decode Scalar Containers DecodeSpec DecodeProps.
Import ListNotations.

(** Induction over nodes that goes into the children. *)
Section NodeInd.
Context {Sp : Type} (P : node Sp -> Prop).
Hypothesis step : forall ty nm args props ch,
  (forall c, ch = Some c -> Forall (fun sn => P (s_value sn)) (s_value c)) ->
  P (Node ty nm args props ch).

Fixpoint node_ind2 (n : node Sp) : P n.
Proof.
  destruct n as [ty nm args props ch]. apply step. destruct ch as [[sp l]|]; [|discriminate].
  intros c E. injection E as <-. cbn [s_value].
  induction l as [|[q n] l IH]; constructor; [apply node_ind2|exact IH].
Qed.
End NodeInd.

Lemma insert_last {Sp V} (k : spanned text Sp) (v : V) m :
  (forall x, In x m -> text_compare (s_value (fst x)) (s_value k) = Lt) ->
  props_insert k v m = m ++ [(k, v)].
Proof.
  induction m as [|[k' v'] m IH]; intros H; [reflexivity|]. cbn [props_insert app].
  assert (K : text_compare (s_value k') (s_value k) = Lt) by (apply (H (k', v')); left; reflexivity).
  rewrite text_compare_antisym, K. cbn [CompOpp]. f_equal. apply IH.
  intros x Hx. apply H. right. exact Hx.
Qed.

(** A map in order is collected as it is. *)
Inductive ordered {Sp V} : list (spanned text Sp * V) -> Prop :=
| Ord_nil : ordered []
| Ord_cons x l : ordered l ->
    (forall y, In y l -> text_compare (s_value (fst x)) (s_value (fst y)) = Lt) ->
    ordered (x :: l).

Lemma collect_ordered_acc {Sp V} (l : list (spanned text Sp * V)) : ordered l -> forall m,
  (forall x y, In x m -> In y l -> text_compare (s_value (fst x)) (s_value (fst y)) = Lt) ->
  fold_left (fun m kv => props_insert (fst kv) (snd kv) m) l m = m ++ l.
Proof.
  induction 1 as [|[k v] l O IH H]; intros m M; cbn [fold_left fst snd].
  - symmetry. apply app_nil_r.
  - rewrite insert_last.
    + rewrite IH, <- app_assoc; [reflexivity|]. intros x y X Y. apply in_app_iff in X as [X|[<-|[]]].
      * apply M; [exact X|right; exact Y].
      * apply H. exact Y.
    + intros x X. apply (M x (k, v)); [exact X|left; reflexivity].
Qed.

Lemma collect_ordered {Sp V} (l : list (spanned text Sp * V)) : ordered l -> btree_collect l = l.
Proof. intros O. apply (collect_ordered_acc l O []). intros x y []. Qed.

Lemma increasing_ordered {Sp} (l : list (spanned text Sp * value Sp)) : increasing l -> ordered l.
Proof. induction 1 as [|x l I IH H]; constructor; auto. Qed.

Lemma ordered_keys {Sp Sp' V V'} (l : list (spanned text Sp * V)) :
  ordered l -> forall l' : list (spanned text Sp' * V'),
  map (fun x => s_value (fst x)) l' = map (fun x => s_value (fst x)) l -> ordered l'.
Proof.
  induction 1 as [|x l O IH H]; intros [|y l'] E; try discriminate; constructor; injection E as E1 E2.
  - apply IH. exact E2.
  - intros z Z. apply (in_map (fun x => s_value (fst x))) in Z. rewrite E2 in Z.
    apply in_map_iff in Z as (z' & Z1 & Z2). rewrite <- Z1, E1. apply H. exact Z2.
Qed.

(** ** Span decoders without effect *)

Section Pure.
Context {Sp Q : Type} (g : Sp -> Q).
Definition pure_span : span_impl Sp Q := fun sp c => (c, g sp).

Lemma value_pure v c : value_decode pure_span v c = (c, DOk (map_value_span g v)).
Proof. destruct v as [[[tsp ty]|] [sp l]]; reflexivity. Qed.

Lemma collect_pure {A B} (f : A -> dec Sp B) h l : (forall a c, f a c = (c, DOk (h a))) ->
  forall c, d_collect f l c = (c, DOk (map h l)).
Proof.
  intros H. induction l as [|a l IH]; intros c; [reflexivity|].
  cbn [d_collect map]. unfold d_bind. rewrite H, IH. reflexivity.
Qed.

Lemma node_pure n : well_formed n -> forall c,
  ast_node pure_span n c = (c, DOk (map_node_span g n)).
Proof.
  induction n as [ty nm args props ch IH] using node_ind2. intros W c.
  inversion W as [? ? ? ? ? I C]; subst. cbn [ast_node map_node_span].
  unfold d_bind at 1.
  replace (match ty with Some t => d_map Some (d_pure (clone_as pure_span t)) | None => d_ok None end c)
    with (c, DOk (Sp := Sp) (option_map (spanned_map_span g) ty))
    by (destruct ty as [[tsp ty]|]; reflexivity).
  unfold d_bind at 1. unfold d_pure at 1. unfold clone_as at 1, pure_span at 1.
  unfold d_bind at 1. rewrite (collect_pure _ (map_value_span g)) by (intros; apply value_pure).
  unfold d_bind at 1.
  rewrite (collect_pure _ (fun kv => (spanned_map_span g (fst kv), map_value_span g (snd kv))) props).
  2:{ intros [[ksp k] v] c'. unfold d_bind at 1. unfold d_pure, clone_as, pure_span at 1. cbn [fst snd s_span s_value].
      unfold d_bind. rewrite value_pure. reflexivity. }
  rewrite collect_ordered.
  2:{ eapply ordered_keys; [apply increasing_ordered; exact I|].
      rewrite map_map. apply map_ext. intros [[ksp k] v]. reflexivity. }
  unfold d_bind at 1.
  match goal with |- (let '(_, _) := ?m c in _) = _ =>
    assert (E : m c = (c, DOk match ch with
              | None => None
              | Some (Spanned sp l) => Some (Spanned (g sp)
                  (map (fun sn => Spanned (g (s_span sn)) (map_node_span g (s_value sn))) l))
              end)) end; [|rewrite E; reflexivity].
  destruct ch as [[sp l]|]; [|reflexivity].
  specialize (IH _ eq_refl). specialize (C _ eq_refl). cbn [s_value s_span] in *.
  unfold d_bind at 1. unfold d_pure at 1, pure_span at 1. unfold d_bind at 1.
  match goal with |- (let '(_, _) := ?m c in _) = _ =>
    assert (E : m c = (c, DOk (map (fun sn => Spanned (g (s_span sn)) (map_node_span g (s_value sn))) l)))
  end; [|rewrite E; reflexivity].
  clear W I. induction l as [|sn l IHl]; [reflexivity|].
  inversion IH as [|? ? IH1 IH2]; subst. inversion C as [|? ? C1 C2]; subst.
  unfold d_bind at 1. unfold d_pure at 1, pure_span at 1.
  unfold d_bind at 1. rewrite IH1 by exact C1. unfold d_bind at 1. rewrite IHl by assumption.
  reflexivity.
Qed.

Lemma snode_pure n c : well_formed (s_value n) ->
  ast_snode_impl pure_span n c = (c, DOk (map_snode_span g n)).
Proof.
  intros W. unfold ast_snode_impl, ast_node_impl, d_bind, d_pure, pure_span at 1.
  rewrite node_pure by exact W. reflexivity.
Qed.

Lemma doc_pure d : Forall (fun sn => well_formed (s_value sn)) d -> forall c,
  vec_children (ast_snode_impl pure_span) d c
  = (c, DOk (map_doc_span g d)).
Proof.
  intros F c. unfold vec_children.
  enough (H : forall acc, vec_loop (ast_snode_impl pure_span) d acc c
    = (c, DOk (acc ++ map_doc_span g d))) by exact (H []).
  revert c. induction F as [|sn d W F IH]; intros c acc; cbn [vec_loop map_doc_span map].
  - rewrite app_nil_r. reflexivity.
  - rewrite snode_pure by exact W. rewrite IH, <- app_assoc. reflexivity.
Qed.

End Pure.

Lemma writable_well_formed {Sp} :
  (forall n : node Sp, writable n -> well_formed n)
  /\ (forall l : list (snode Sp), writable_list l -> Forall (fun sn => well_formed (s_value sn)) l).
Proof.
  apply writable_both.
  - intros ty nm args props ch _ _ I _ _ IH. constructor; [exact I|exact IH].
  - constructor.
  - intros n l _ IHn _ IHl. constructor; assumption.
Qed.

Lemma parsed_well_formed t d : parse_ast_span t = Parsed d ->
  Forall (fun sn => well_formed (s_value sn)) d.
Proof. intros H. apply writable_well_formed, (parsed_writable t d H). Qed.

(** ** Any span decoder: the trees are the same without the spans. *)

Section AnySpan.
Context {Sp Q : Type} (ds : span_impl Sp Q).
Let e {X} : X -> unit := fun _ => tt.

Definition gives {A} (m : dec Sp A) (P : A -> Prop) : Prop :=
  forall c, exists c' a, m c = (c', DOk a) /\ P a.

Lemma gives_bind {A B} (m : dec Sp A) (f : A -> dec Sp B) P R :
  gives m P -> (forall a, P a -> gives (f a) R) -> gives (d_bind m f) R.
Proof.
  intros M F c. destruct (M c) as (c' & a & E & Pa). destruct (F a Pa c') as (c2 & b & E2 & R2).
  exists c2, b. unfold d_bind. rewrite E. auto.
Qed.
Lemma gives_ok {A} (a : A) (P : A -> Prop) : P a -> gives (d_ok a) P.
Proof. intros H c. exists c, a. auto. Qed.
Lemma gives_span sp : gives (d_pure (ds sp)) (fun _ => True).
Proof. intros c. unfold d_pure. destruct (ds sp c) as [c' q]. eauto. Qed.
Lemma gives_clone {T} (x : spanned T Sp) : gives (d_pure (clone_as ds x)) (fun y => s_value y = s_value x).
Proof.
  intros c. unfold d_pure, clone_as. destruct (ds (s_span x) c) as [c' q]. eexists _, _.
  split; [reflexivity|]. reflexivity.
Qed.
Lemma gives_collect {A B} (f : A -> dec Sp B) R l : (forall a, gives (f a) (R a)) ->
  gives (d_collect f l) (Forall2 R l).
Proof.
  intros H. induction l as [|a l IH]; cbn [d_collect]; [apply gives_ok; constructor|].
  eapply gives_bind; [apply H|]. intros b Hb. eapply gives_bind; [apply IH|].
  intros bs Hbs. apply gives_ok. constructor; auto.
Qed.
Lemma value_any v : gives (value_decode ds v) (fun v' => map_value_span e v' = map_value_span e v).
Proof.
  intros c. unfold value_decode, clone_as.
  destruct v as [[[tsp ty]|] [sp l]]; cbn [v_type_name v_literal s_span s_value].
  - destruct (ds tsp c) as [c1 q1]. destruct (ds sp c1) as [c2 q2]. eexists _, _. split; reflexivity.
  - destruct (ds sp c) as [c1 q1]. eexists _, _. split; reflexivity.
Qed.

Lemma spanned_erase {T} (x : spanned T Sp) (y : spanned T Q) : s_value y = s_value x ->
  spanned_map_span (e (X := Q)) y = spanned_map_span (e (X := Sp)) x.
Proof. destruct x, y. cbn. intros ->. reflexivity. Qed.

Lemma node_any n : well_formed n ->
  gives (ast_node ds n) (fun n' => map_node_span e n' = map_node_span e n).
Proof.
  induction n as [ty nm args props ch IH] using node_ind2. intros W.
  inversion W as [? ? ? ? ? I C]; subst. cbn [ast_node].
  apply (gives_bind _ _ (fun ty' => option_map (spanned_map_span e) ty'
                                    = option_map (spanned_map_span e) ty)).
  { destruct ty as [t|]; [|apply gives_ok; reflexivity].
    eapply gives_bind; [apply gives_clone|]. intros t' T. apply gives_ok.
    cbn. rewrite (spanned_erase t t' T). reflexivity. }
  intros ty' T. eapply gives_bind; [apply gives_clone|]. intros nm' N.
  eapply gives_bind; [apply gives_collect; intros; apply value_any|]. intros args' A.
  eapply (gives_bind _ _ (Forall2 (fun kv kv' => s_value (fst kv') = s_value (fst kv)
      /\ map_value_span e (snd kv') = map_value_span e (snd kv)) props)).
  { apply gives_collect. intros kv. eapply gives_bind; [apply gives_clone|]. intros k' K.
    eapply gives_bind; [apply value_any|]. intros v' V. apply gives_ok. auto. }
  intros props' P.
  apply (gives_bind _ _ (fun ch' => option_map (fun c => map (map_snode_span e) (s_value c)) ch'
     = option_map (fun c => map (map_snode_span e) (s_value c)) ch)).
  - destruct ch as [[sp l]|]; [|apply gives_ok; reflexivity].
    specialize (IH _ eq_refl). specialize (C _ eq_refl). cbn [s_value s_span] in *.
    eapply gives_bind; [apply gives_span|]. intros sp' _.
    apply (gives_bind _ _ (fun l' => map (map_snode_span e) l' = map (map_snode_span e) l)).
    + clear W I P A N T. induction l as [|sn l IHl]; [apply gives_ok; reflexivity|].
      inversion IH as [|? ? IH1 IH2]; subst. inversion C as [|? ? C1 C2]; subst.
      eapply gives_bind; [apply gives_span|]. intros q _.
      eapply gives_bind; [apply IH1; exact C1|]. intros n' Hn.
      eapply gives_bind; [apply IHl; assumption|]. intros l' Hl.
      apply gives_ok. cbn [map]. unfold map_snode_span at 1 3. cbn [s_span s_value].
      rewrite Hn, Hl. reflexivity.
    + intros l' Hl. apply gives_ok. cbn. rewrite Hl. reflexivity.
  - intros ch' Hc. apply gives_ok. cbn [map_node_span]. rewrite T.
    rewrite (spanned_erase nm nm' N).
    replace (map (map_value_span e) args') with (map (map_value_span (e (X := Sp))) args).
    2:{ clear -A. induction A; cbn; congruence. }
    rewrite collect_ordered.
    2:{ eapply ordered_keys; [apply increasing_ordered; exact I|].
        clear -P. induction P as [|x y l l' [K V]]; cbn; congruence. }
    replace (map (fun kv => (spanned_map_span e (fst kv), map_value_span e (snd kv))) props')
      with (map (fun kv => (spanned_map_span (e (X := Sp)) (fst kv), map_value_span (e (X := Sp)) (snd kv))) props).
    2:{ clear -P. induction P as [|x y l l' [K V]]; cbn [map]; [reflexivity|].
        rewrite IHP, V, (spanned_erase (fst x) (fst y) K). reflexivity. }
    f_equal. destruct ch as [[sp l]|], ch' as [[sp' l']|]; try discriminate; [|reflexivity].
    cbn in Hc. injection Hc as Hc.
    exact (f_equal (fun l => Some (Spanned tt l)) Hc).
Qed.

Lemma snode_any n : well_formed (s_value n) ->
  gives (ast_snode_impl ds n) (fun n' => map_snode_span e n' = map_snode_span e n).
Proof.
  intros W. unfold ast_snode_impl, ast_node_impl.
  eapply gives_bind; [apply gives_span|]. intros q _.
  eapply gives_bind; [apply node_any; exact W|]. intros n' N. apply gives_ok.
  unfold map_snode_span. cbn. rewrite N. reflexivity.
Qed.

End AnySpan.

Lemma parsed_doc_pure {Q} (g : span -> Q) t d c : parse_ast_span t = Parsed d ->
  vec_children (ast_snode_impl (pure_span g)) d c = (c, DOk (map_doc_span g d)).
Proof. intros H. apply doc_pure, (parsed_well_formed t d H). Qed.

Lemma literal_pure {Sp} (v : value Sp) c :
  sc_decode literal_impl v c = (c, DOk (s_value (v_literal v))).
Proof. reflexivity. Qed.
