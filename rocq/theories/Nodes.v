(** Nodes and documents: the parser accepts what the grammar says. *)

From Coq Require Import NArith ZArith PeanoNat List Bool String Lia ZifyBool.
From Verif Require Import Chars Ast Errors Chumsky Spans Grammar Safe GrammarSafe
  Near GrammarNear NodeSafe DocSafe Kdl KdlChars Good LexSpace LexLit LexIdent PropMap Items.
Import ListNotations.
Local Open Scope list_scope.

Section Sep.
Context {Sp : Type} {E : env Sp}.

Notation parser := (parser Sp).
Notation toks := (toks Sp).
Notation len := (@List.length (tok Sp)).

(** ** [separated_by] *)

Inductive sepc {A B} (item : parser A) (d : parser B) : toks -> list A -> toks -> Prop :=
| Sep_nil ts : sepc item d ts [] ts
| Sep_cons ts x r1 a r2 l rest : good (d ts) x r1 -> good (item r1) a r2 ->
    sepc item d r2 l rest -> sepc item d ts (a :: l) rest.

(** A delimiter that always succeeds, without errors. *)
Definition clean {B} (d : parser B) : Prop := forall ts, exists x r, good (d ts) x r.

Lemma delim_clean {B} (d : parser B) : delim_good d -> clean d.
Proof.
  intros [Q H] ts. destruct (H ts) as [C [x [r [alt [O _]]]]]. exists x, r.
  split; [|exact C]. split; [apply Q|eauto].
Qed.

Lemma sep_or_not_clean {B} (d : parser B) alt ts x r : good (d ts) x r ->
  exists alt' c, sep_or_not d alt ts = (alt', r, c).
Proof.
  intros [[H0 [al H]] C]. unfold sep_or_not. rewrite H, H0. cbn [merge_alts_list].
  destruct (merge_alts alt al) as [m c]. eauto.
Qed.

Lemma sep_loop_sound {A B} (item : parser A) (d : parser B) : clean d ->
  forall fuel errs outs alt cr ts outs' alt' ts' err,
  sep_loop fuel item d errs outs alt cr ts = ([], outs', alt', ts', err, []) ->
  errs = [] /\ cr = [] /\ exists l, outs' = rev l ++ outs /\ sepc item d ts l ts'.
Proof.
  intros D. induction fuel as [|fuel IH]; intros errs outs alt cr ts outs' alt' ts' err H.
  - cbn [sep_loop] in H. injection H as H0 H1 H2 H3 H4 H5.
    apply app_eq_nil in H5. destruct H5; discriminate.
  - cbn [sep_loop] in H. destruct (D ts) as [x [r [[D0 [al D1]] D2]]].
    rewrite D0, D1, D2 in H. destruct (merge_alts alt al) as [alt1 c1].
    destruct (r_out (item r)) as [a r2 ial|e] eqn:O.
    + destruct (merge_alts alt1 ial) as [alt2 c2].
      apply IH in H. destruct H as [H1 [H2 [l [-> S]]]].
      apply app_nil2 in H1. destruct H1 as [-> H1]. cbn [app] in H1.
      apply app_nil2 in H2. destruct H2 as [H2 ->].
      apply app_nil2 in H2. destruct H2 as [-> H2]. cbn [app] in H2.
      apply app_nil2 in H2. destruct H2 as [-> H2].
      split; [reflexivity|]. split; [reflexivity|]. exists (a :: l).
      split; [cbn [rev]; rewrite <- app_assoc; reflexivity|].
      econstructor; [| |exact S].
      * split; [|exact D2]. split; [exact D0|eauto].
      * split; [|exact H2]. split; [exact H1|eauto].
    + injection H as H0 H1 H2 H3 H4 H5.
      apply app_nil2 in H0. destruct H0 as [-> _].
      apply app_nil2 in H5. destruct H5 as [-> _].
      split; [reflexivity|]. split; [reflexivity|]. exists []. subst. split; [reflexivity|constructor].
Qed.

Lemma good_separated {A B} (item : parser A) (d : parser B) ts l rest : clean d ->
  good (p_separated item d ts) l rest ->
  exists r x, sepc item d ts l r /\ good (d r) x rest.
Proof.
  intros D [[H0 [alt H]] C]. unfold p_separated in *.
  destruct (D ts) as [x [r1 G1]].
  destruct (sep_or_not_clean d None ts x r1 G1) as [alt0 [c0 X]]. rewrite X in *.
  destruct (r_out (item r1)) as [a r2 ial|e] eqn:O.
  - destruct (merge_alts alt0 ial) as [alt1 c1].
    destruct (sep_loop (S (len ts)) item d (r_errs (item r1)) [a] alt1
      (c0 ++ r_crash (item r1) ++ c1) r2) as [[[[[errs outs] alt2] ts2] err] c2] eqn:L.
    destruct (D ts2) as [y [r3 G3]].
    destruct (sep_or_not_clean d alt2 ts2 y r3 G3) as [alt3 [c3 X3]]. rewrite X3 in *.
    destruct (merge_alts alt3 err) as [alt4 c4].
    cbn [r_errs r_out r_crash] in *. subst errs. inversion H; subst.
    apply app_nil2 in C. destruct C as [-> _].
    apply sep_loop_sound in L; [|exact D]. destruct L as [L1 [L2 [l [-> S]]]].
    apply app_nil2 in L2. destruct L2 as [_ L2]. apply app_nil2 in L2. destruct L2 as [L2 _].
    exists ts2, y. split; [|exact G3].
    rewrite rev_app_distr, rev_involutive. cbn [rev app].
    econstructor; [exact G1| |exact S]. split; [|exact L2]. split; [exact L1|eauto].
  - destruct (merge_alts alt0 (Some e)) as [alt1 c1]. cbn [r_errs r_out r_crash] in *.
    inversion H; subst. exists ts, x. split; [constructor|exact G1].
Qed.

(** Completeness. *)
Inductive ssepc {A B} (item : parser A) (d : parser B) : toks -> list A -> toks -> Prop :=
| SSep_nil ts : ssepc item d ts [] ts
| SSep_cons ts x r1 a r2 l rest : succ (d ts) x r1 -> succ (item r1) a r2 ->
    len r2 < len ts -> ssepc item d r2 l rest -> ssepc item d ts (a :: l) rest.

Lemma sep_or_not_succ {B} (d : parser B) alt ts x r : succ (d ts) x r ->
  exists alt' c, sep_or_not d alt ts = (alt', r, c).
Proof.
  intros [H0 [al H]]. unfold sep_or_not. rewrite H, H0. cbn [merge_alts_list].
  destruct (merge_alts alt al) as [m c]. eauto.
Qed.

Definition fq {A} (r : presult Sp A) : Prop := failed r /\ r_errs r = [].

Lemma sep_loop_complete {A B} (item : parser A) (d : parser B) ts l r :
  ssepc item d ts l r -> forall x rest, succ (d r) x rest -> fq (item rest) ->
  forall fuel outs alt cr, len ts < fuel ->
  exists alt' err c, sep_loop fuel item d [] outs alt cr ts = ([], rev l ++ outs, alt', r, err, c).
Proof.
  induction 1 as [ts|ts y r1 a r2 l rest D I L S IH]; intros x rs R F fuel outs alt cr Hf.
  - destruct fuel as [|fuel]; [lia|]. cbn [sep_loop].
    destruct R as [R0 [al R]]. rewrite R, R0. destruct (merge_alts alt al) as [alt1 c1].
    destruct F as [[e F] F0]. rewrite F, F0. cbn [rev app]. eauto.
  - destruct fuel as [|fuel]; [lia|]. cbn [sep_loop].
    destruct D as [D0 [al D]]. rewrite D, D0. destruct (merge_alts alt al) as [alt1 c1].
    destruct I as [I0 [ial I]]. rewrite I, I0. destruct (merge_alts alt1 ial) as [alt2 c2].
    cbn [app rev]. edestruct (IH x rs R F fuel (a :: outs)) as [alt' [err [c X]]]; [lia|].
    rewrite X, <- app_assoc. eauto.
Qed.

Lemma succ_separated {A B} (item : parser A) (d : parser B) ts l r x rest :
  ssepc item d ts l r -> succ (d r) x rest -> fq (item rest) ->
  succ (p_separated item d ts) l rest.
Proof.
  intros S R F. unfold p_separated. inversion S; subst.
  - destruct (sep_or_not_succ d None r x rest R) as [alt0 [c0 X]]. rewrite X.
    destruct F as [[e F] F0]. rewrite F, F0. destruct (merge_alts alt0 (Some e)).
    split; [reflexivity|]. eexists; reflexivity.
  - destruct (sep_or_not_succ d None ts x0 r1 H) as [alt0 [c0 X]]. rewrite X.
    destruct H0 as [I0 [ial I]]. rewrite I, I0. destruct (merge_alts alt0 ial) as [alt1 c1].
    destruct (sep_loop_complete item d r2 l0 r H2 x rest R F (Datatypes.S (len ts)) [a] alt1
      (c0 ++ r_crash (item r1) ++ c1)) as [alt' [err [c Y]]]; [lia|].
    rewrite Y. destruct (sep_or_not_succ d alt' r x rest R) as [alt3 [c3 Z]]. rewrite Z.
    destruct (merge_alts alt3 err). split; [reflexivity|]. cbn [r_out].
    rewrite rev_app_distr, rev_involutive. eexists; reflexivity.
Qed.

Lemma rej_fq {A} f (p : parser A) ts : rej f p -> hd f ts = false -> fq (p ts).
Proof.
  intros R H. destruct (R ts H) as [e [-> _]]. split; [eexists; reflexivity|reflexivity].
Qed.

Lemma fq_then {A B} (p : parser A) (q : parser B) ts a r : succ (p ts) a r -> fq (q r) ->
  fq (p_then p q ts).
Proof.
  intros S [F F0]. split; [eapply failed_then2; eauto|].
  destruct S as [S0 [alt S]]. destruct F as [e F].
  unfold p_then, p_bind. rewrite S, F. destruct (lmax_opt e alt). cbn [r_errs].
  rewrite S0, F0. reflexivity.
Qed.

Lemma fq_spanned {A} (p : parser A) ts : fq (p ts) -> fq (p_spanned p ts).
Proof. intros [F F0]. split; [apply failed_map_with_span, F|exact F0]. Qed.

End Sep.

Section Nodes.
Context {Sp : Type} {E : env Sp}.

Notation parser := (parser Sp).
Notation toks := (toks Sp).
Notation len := (@List.length (tok Sp)).

Lemma lines_clean : clean (p_repeated (@line_space Sp E)).
Proof. apply delim_clean, lines_good. Qed.

Lemma opt_children_eq (nodes : parser (list (snode Sp))) : opt_children nodes =
  p_or_not (p_then (p_ignore_then (p_repeated node_space) slashdash)
    (p_spanned (braced_nodes nodes))).
Proof. reflexivity. Qed.
Lemma slashdash_eq : @slashdash Sp E =
  p_or_not (p_then_ignore (begin_comment 0x2D%N) (p_repeated node_space)).
Proof. reflexivity. Qed.
Lemma node_eq (nodes : parser (list (snode Sp))) : node_ nodes =
  p_map make_node
    (p_then_ignore
      (p_then
        (p_then
          (p_then (p_or_not (p_spanned type_name)) (p_spanned ident))
          node_items)
        (opt_children nodes))
      (p_then (p_repeated node_space) node_terminator)).
Proof. reflexivity. Qed.

(** ** Soundness *)

Lemma node_items_sound ts l rest : good (node_items ts) l rest ->
  exists s, ts = s ++ rest /\ items_at false s rest (map entry_of l).
Proof.
  unfold node_items. intros G. apply good_repeated in G. destruct G as [Ch _].
  induction Ch as [ts|ts a r1 l rest G Ch IH].
  - exists []. split; [reflexivity|constructor].
  - destruct IH as [t [-> It]]. apply good_ignore_then in G. destruct G as [x [r2 [G1 G2]]].
    apply node_spaces1_sound in G1. destruct G1 as [sp [-> [Ns [W Ne]]]].
    apply item_sound in G2. destruct G2 as [s [-> I]].
    exists (sp ++ s ++ t). split; [aa|]. cbn [map]. constructor; auto.
Qed.

Lemma fold_items (l : list (@prop_or_arg_t Sp)) : forall a0 p0 l0,
  property_map l0 p0 ->
  fst (fold_left add_item l (a0, p0)) = a0 ++ arguments_of (map entry_of l)
  /\ property_map (l0 ++ properties_of (map entry_of l)) (snd (fold_left add_item l (a0, p0))).
Proof.
  induction l as [|i l IH]; intros a0 p0 l0 H; cbn [fold_left map].
  - cbn. rewrite !app_nil_r. auto.
  - destruct i as [k v|v|]; cbn [add_item fst snd entry_of arguments_of properties_of].
    + specialize (IH a0 (props_insert k v p0) (l0 ++ [(k, v)]) (property_map_snoc _ _ _ _ H)).
      rewrite <- app_assoc in IH. exact IH.
    + specialize (IH (a0 ++ [v]) p0 l0 H). rewrite <- app_assoc in IH. exact IH.
    + exact (IH a0 p0 l0 H).
Qed.

Lemma fold_items0 (l : list (@prop_or_arg_t Sp)) :
  fst (fold_left add_item l ([], [])) = arguments_of (map entry_of l)
  /\ property_map (properties_of (map entry_of l)) (snd (fold_left add_item l ([], []))).
Proof. apply (fold_items l [] [] []). apply property_map_nil. Qed.

Definition nodes_sound (nodes : parser (list (snode Sp))) : Prop :=
  forall ts l rest, good (nodes ts) l rest ->
  exists s, ts = s ++ rest /\ nodes_at false s rest l.

Lemma braces_sound nodes ts l rest : nodes_sound nodes ->
  good (braced_nodes nodes ts) l rest ->
  exists s, ts = s ++ rest /\ braces_at false s rest l /\ s <> [].
Proof.
  intros H G. unfold braced_nodes in G. apply good_ignore_then in G.
  destruct G as [x [r1 [G1 G2]]]. apply good_just in G1. destruct G1 as [sp [-> ->]].
  apply good_map_err_with_span in G2. apply good_then_ignore in G2.
  destruct G2 as [y [r2 [G2 G3]]]. apply H in G2. destruct G2 as [s [-> N]].
  apply good_just in G3. destruct G3 as [sq [-> ->]].
  exists ((0x7B%N, sp) :: s ++ [(0x7D%N, sq)]). split; [aa|]. split; [|discriminate].
  apply Braces; auto.
Qed.

Definition kept (o : option (option unit * spanned (list (snode Sp)) Sp)) :=
  match o with
  | Some (Some _, _) => None
  | Some (None, c) => Some c
  | None => None
  end.

Lemma slashdash_sound ts o rest : good (slashdash ts) o rest ->
  (o = None /\ rest = ts) \/
  (exists d, o = Some tt /\ ts = d ++ rest /\ slashdash_at false d rest).
Proof.
  rewrite slashdash_eq. intros G. apply good_or_not in G. destruct G as [[[] [-> G]]|[-> [-> _]]]; [|auto].
  right. apply good_then_ignore in G. destruct G as [l [r1 [G1 G2]]].
  pose proof (dash_parts_sound _ _ _ _ _ G1 G2) as [d [-> D]]. eauto.
Qed.

Lemma spanned_braces_sound nodes ts x rest : nodes_sound nodes ->
  good (p_spanned (braced_nodes nodes) ts) x rest ->
  exists s l, ts = s ++ rest /\ braces_at false s rest l /\ x = Spanned (span_of s) l.
Proof.
  intros H G. apply (spanned_sound _ (fun s l r => braces_at false s r l)) in G.
  - destruct G as [s [a [X [Y [Z _]]]]]. eauto.
  - intros a G2. exact (braces_sound nodes ts a rest H G2).
Qed.

Lemma opt_children_sound nodes ts o rest : nodes_sound nodes ->
  good (opt_children nodes ts) o rest ->
  exists s, ts = s ++ rest /\ children_at false s rest (kept o).
Proof.
  intros H G. rewrite opt_children_eq in G. apply good_or_not in G.
  destruct G as [[a [-> G]]|[-> [-> _]]].
  - apply good_then in G. destruct G as [dd [b [r1 [G1 [G2 ->]]]]].
    apply good_ignore_then in G1. destruct G1 as [x [r2 [G0 G1]]].
    apply node_spaces_sound in G0. destruct G0 as [sp [-> [Ns W]]].
    apply (spanned_braces_sound _ _ _ _ H) in G2. destruct G2 as [s [l [-> [B ->]]]].
    apply slashdash_sound in G1. destruct G1 as [[-> <-]|[d [-> [-> D]]]]; cbn [kept].
    + exists (sp ++ s). split; [aa|]. constructor; auto.
    + exists (sp ++ d ++ s). split; [aa|]. econstructor; eauto.
  - exists []. split; [reflexivity|constructor].
Qed.

Lemma ident_ne s r t : ident_at s r t -> s <> [].
Proof. intros H ->. apply ident_at_start in H. destruct H as [c [u [X _]]]. discriminate. Qed.

Lemma make_node_eq ty nm items oc :
  make_node ((ty, nm), items, oc) =
  Node ty nm (fst (@fold_left _ (prop_or_arg_t) add_item items ([], [])))
    (snd (fold_left add_item items ([], []))) (@kept oc).
Proof.
  unfold make_node. destruct (fold_left add_item items ([], [])). reflexivity.
Qed.

Lemma node_sound nodes ts nd rest : nodes_sound nodes -> good (node_ nodes ts) nd rest ->
  exists s, ts = s ++ rest /\ node_at false s rest nd /\ s <> [].
Proof.
  intros H G. rewrite node_eq in G. apply good_map in G. destruct G as [x [G ->]].
  apply good_then_ignore in G. destruct G as [y [r1 [G Gt]]].
  apply good_then in G. destruct G as [a1 [oc [r2 [G [Gc ->]]]]].
  apply good_then in G. destruct G as [a2 [items [r3 [G [Gi ->]]]]].
  apply good_then in G. destruct G as [ty [nm [r4 [Gy [Gn ->]]]]].
  rewrite make_node_eq.
  apply good_then in Gt. destruct Gt as [z1 [z2 [r5 [Gs [Gt _]]]]].
  apply terminator_sound in Gt. destruct Gt as [sm [-> T]].
  apply node_spaces_sound in Gs. destruct Gs as [ss [-> [Ns W]]].
  apply (opt_children_sound _ _ _ _ H) in Gc. destruct Gc as [sc [-> C]].
  apply node_items_sound in Gi. destruct Gi as [si [-> I]].
  apply (spanned_sound ident (fun s t r => ident_at (chars s) (chars r) t)) in Gn.
  2:{ intros a G. apply ident_sound in G. destruct G as [s [X Y]]. exists s.
      repeat split; auto. apply ne_chars. eapply ident_ne; eauto. }
  destruct Gn as [sn [t [-> [Id [-> Ne]]]]].
  assert (exists st, ts = st ++ sn ++ si ++ sc ++ ss ++ sm ++ rest /\ opt_type_at st ty) as [st [-> Ty]].
  { apply good_or_not in Gy. destruct Gy as [[q [-> Gy]]|[-> [<- _]]].
    - apply spanned_type_sound in Gy. destruct Gy as [st [l [-> [L ->]]]].
      exists st. split; [reflexivity|constructor; auto].
    - exists []. split; [reflexivity|constructor]. }
  destruct (fold_items0 items) as [F1 F2]. rewrite F1.
  exists (st ++ sn ++ si ++ sc ++ ss ++ sm). split; [aa|]. split.
  - econstructor; eauto.
  - intros X. apply app_nil2 in X. destruct X as [_ X]. apply app_nil2 in X. destruct X; auto.
Qed.

Definition item_parser nodes : parser (option unit * snode Sp) :=
  p_then slashdash (p_spanned (node_ nodes)).

Lemma spanned_node_sound nodes ts x rest : nodes_sound nodes ->
  good (p_spanned (node_ nodes) ts) x rest ->
  exists s n, ts = s ++ rest /\ node_at false s rest n /\ x = Spanned (span_of s) n /\ s <> [].
Proof.
  intros H G. apply (spanned_sound _ (fun s l r => node_at false s r l)) in G.
  - exact G.
  - intros a G2. exact (node_sound nodes ts a rest H G2).
Qed.

Lemma sepc_sound nodes ts items r : nodes_sound nodes ->
  sepc (item_parser nodes) (p_repeated line_space) ts items r ->
  forall x rest, good (p_repeated line_space r) x rest ->
  exists s, ts = s ++ rest /\ nodes_at false s rest (flat_map keep_node items).
Proof.
  intros H. induction 1 as [ts|ts y r1 a r2 l r3 D I S IH]; intros x rest G.
  - apply line_spaces_sound in G. destruct G as [sp [-> [L W]]]. exists sp.
    split; [reflexivity|]. rewrite <- (app_nil_r sp) at 1. constructor; [exact L|constructor].
  - destruct (IH x rest G) as [s2 [-> N]].
    apply line_spaces_sound in D. destruct D as [sp [-> [L W]]].
    unfold item_parser in I. apply good_then in I. destruct I as [dd [b [r4 [I1 [I2 ->]]]]].
    apply (spanned_node_sound _ _ _ _ H) in I2. destruct I2 as [s [n [-> [Nd [-> Ne]]]]].
    cbn [flat_map]. inversion N as [sp2 t rest' l' L2 N2]; subst.
    apply slashdash_sound in I1. destruct I1 as [[-> <-]|[d [-> [-> Dd]]]];
      unfold keep_node at 1; cbn [fst snd app].
    + exists (sp ++ s ++ sp2 ++ t). split; [aa|]. constructor.
      * revert L. rewrite <- !app_assoc. auto.
      * constructor; auto.
        -- destruct s as [|c s]; [congruence|]. exact W.
        -- rewrite <- app_assoc in Nd. exact Nd.
    + exists (sp ++ d ++ s ++ sp2 ++ t). split; [aa|]. constructor.
      * revert L. rewrite <- !app_assoc. auto.
      * rewrite <- !app_assoc in *. econstructor; eauto.
Qed.

Lemma nodes_rec_sound n : nodes_sound (nodes_rec n).
Proof.
  induction n as [|n IH]; intros ts l rest G.
  - destruct G as [_ C]. discriminate.
  - change (nodes_rec (S n)) with (nodes_body (@nodes_rec Sp E n)) in G. unfold nodes_body in G.
    apply good_map in G. destruct G as [items [G ->]].
    apply good_separated in G; [|apply lines_clean]. destruct G as [r [x [S D]]].
    eapply sepc_sound; eauto.
Qed.

Lemma document_sound ts d rest : good (document_ ts) d rest ->
  rest = [] /\ document_at false ts d.
Proof.
  unfold document_. intros G. apply good_then_ignore in G. destruct G as [x [r [G1 G2]]].
  apply good_end in G2. destruct G2 as [-> ->]. split; [reflexivity|].
  apply nodes_rec_sound in G1. destruct G1 as [s [-> N]]. rewrite app_nil_r. exact N.
Qed.

End Nodes.
