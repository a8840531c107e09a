(** Where the parser stands after the beginning of a document: it reads what the
    grammar says and is left with the rest, so that a bad rest makes the
    document bad. *)

From Coq Require Import NArith PeanoNat List Bool String Lia ZifyBool.
From Verif Require Import Chars Ast Errors Chumsky Spans Grammar Safe GrammarSafe
  Near GrammarNear NodeSafe DocSafe Kdl KdlChars Good LexSpace LexLit LexIdent PropMap
  Items Nodes NodesComplete Template.
Import ListNotations.
Local Open Scope list_scope.

Section Place.
Context {Sp : Type} {E : env Sp}.

Notation parser := (parser Sp).
Notation toks := (toks Sp).
Notation len := (@List.length (tok Sp)).

(** ** Repetition *)

Lemma good_fun {A} (r : presult Sp A) a rest a' rest' :
  good r a rest -> succ r a' rest' -> a = a' /\ rest = rest'.
Proof. intros [G _] S. eapply succ_fun; eassumption. Qed.

Lemma chain_through {A} (p : parser A) ts l0 r0 : schain p ts l0 r0 ->
  forall l rest, chain p ts l rest -> failed (p rest) -> exists l1, chain p r0 l1 rest.
Proof.
  induction 1 as [ts|ts a r1 l0 r0 S L Ch IH]; intros l rest C F; [eauto|].
  inversion C as [|ts' a' r1' l' rest' G C']; subst.
  - exfalso. eapply succ_failed; eassumption.
  - destruct (good_fun _ _ _ _ _ G S) as [-> ->]. eauto.
Qed.

Lemma sep_loop_end {A B} (item : parser A) (d : parser B) : clean d ->
  forall fuel errs outs alt cr ts outs' alt' ts' err,
  sep_loop fuel item d errs outs alt cr ts = ([], outs', alt', ts', err, []) ->
  exists x r, good (d ts') x r /\ failed (item r).
Proof.
  intros D. induction fuel as [|fuel IH]; intros errs outs alt cr ts outs' alt' ts' err H.
  - cbn [sep_loop] in H. injection H as H0 H1 H2 H3 H4 H5.
    apply app_eq_nil in H5. destruct H5; discriminate.
  - cbn [sep_loop] in H. destruct (D ts) as [x [r [[D0 [al D1]] D2]]].
    rewrite D0, D1, D2 in H. destruct (merge_alts alt al) as [alt1 c1].
    destruct (r_out (item r)) as [a r2 ial|e] eqn:O.
    + destruct (merge_alts alt1 ial) as [alt2 c2]. apply IH in H. exact H.
    + injection H as H0 H1 H2 H3 H4 H5. subst ts'. exists x, r.
      split; [split; [split; [exact D0|eauto]|exact D2]|]. exists e. exact O.
Qed.

Lemma good_separated_end {A B} (item : parser A) (d : parser B) ts l rest : clean d ->
  good (p_separated item d ts) l rest -> failed (item rest).
Proof.
  intros D [[H0 [alt H]] C]. unfold p_separated in *.
  destruct (D ts) as [x [r1 G1]].
  destruct (sep_or_not_clean d None ts x r1 G1) as [alt0 [c0 X]]. rewrite X in *.
  destruct (r_out (item r1)) as [a r2 ial|e] eqn:O.
  - destruct (merge_alts alt0 ial) as [alt1 c1].
    destruct (sep_loop (S (len ts)) item d (r_errs (item r1)) [a] alt1
      (c0 ++ r_crash (item r1) ++ c1) r2) as [[[[[errs outs] alt2] ts2] err] c2] eqn:L.
    destruct (D ts2) as [y [r3 G3]].
    destruct (sep_or_not_clean d alt2 ts2 y r3 G3) as [alt3 [c3 X3]]. rewrite X3 in *.
    destruct (merge_alts alt3 err) as [alt4 c4].
    cbn [r_errs r_out r_crash] in *. subst errs. inversion H; subst.
    apply app_nil2 in C. destruct C as [-> _].
    apply sep_loop_end in L; [|exact D]. destruct L as [x' [r [G F]]].
    destruct G3 as [G3 _]. destruct (good_fun _ _ _ _ _ G G3) as [_ <-]. exact F.
  - destruct (merge_alts alt0 (Some e)) as [alt1 c1]. cbn [r_errs r_out r_crash] in *.
    inversion H; subst. exists e. exact O.
Qed.

Lemma separated_stuck {A B} (item : parser A) (d : parser B) ts l0 r0 : clean d ->
  ssepc item d ts l0 r0 ->
  forall y x1, succ (d r0) y x1 -> (forall a r, ~ good (item x1) a r) ->
  forall l rest, good (p_separated item d ts) l rest -> rest = x1.
Proof.
  intros D S y x1 Y N l rest G. pose proof (good_separated_end _ _ _ _ _ D G) as F.
  apply good_separated in G; [|exact D]. destruct G as [r [x [G1 G2]]].
  revert l r G1 G2. induction S as [ts|ts z r1 a r2 l0 r0 Sd Si L S IH]; intros l r G1 G2;
    (inversion G1 as [|ts' z' r1' a' r2' l' rest' Gd Gi G1']; subst).
  - destruct (good_fun _ _ _ _ _ G2 Y) as [_ ->]. reflexivity.
  - exfalso. destruct (good_fun _ _ _ _ _ Gd Y) as [_ ->]. eapply N, Gi.
  - exfalso. destruct (good_fun _ _ _ _ _ G2 Sd) as [_ ->]. exact (succ_failed _ _ _ Si F).
  - destruct (good_fun _ _ _ _ _ Gd Sd) as [_ ->].
    destruct (good_fun _ _ _ _ _ Gi Si) as [_ ->]. eapply IH; eauto.
Qed.

(** ** Nodes *)

Definition dashed_at (d x : toks) : Prop :=
  not_ws (chars x) /\ (d = [] \/ slashdash_at true d x).

Lemma slashdash_through d (x : toks) : dashed_at d x -> ns_stop (chars x) ->
  hd_error (chars x) <> Some 0x2F%N -> exists o, succ (slashdash (d ++ x)) o x.
Proof.
  intros [_ [->|D]] N H.
  - exists None. apply slashdash_none. intros [u U]. apply H. rewrite U. reflexivity.
  - exists (Some tt). apply slashdash_some; assumption.
Qed.

(** The header and the elements of a node. *)
Lemma items_chain s R l : items_at true s R l -> follow (chars R) ->
  exists is, schain item_loop (s ++ R) is R.
Proof.
  intros H F. induction H as [R|sp s t R i l Ne N W I T IH].
  - exists []. constructor.
  - destruct (IH F) as [is Ch].
    destruct (item_complete s i (t ++ R) I (items_follow _ _ _ _ T F)) as [j [S J]].
    destruct (node_spaces1_complete sp (s ++ t ++ R) N (item_ns_stop _ _ _ I W) Ne) as [u L].
    exists (j :: is). rewrite <- !app_assoc. econstructor; [| |exact Ch].
    + rewrite item_loop_eq. eapply succ_ignore_then; [exact L|exact S].
    + rewrite !app_length. destruct sp; [congruence|]. cbn [List.length]. lia.
Qed.

Lemma type_through st sn r ty nm : opt_type_at st ty -> ident_at (chars sn) r nm ->
  forall rest : toks, succ (p_or_not (p_spanned type_name) (st ++ sn ++ rest)) ty (sn ++ rest).
Proof.
  intros OT Id rest. destruct OT as [|s ty T].
  - cbn [app]. apply succ_or_not_none, failed_map_with_span, type_name_failed.
    apply ident_at_start in Id. destruct Id as [c [v [X Y]]]. rewrite chars_app, X.
    cbn [app hd_error]. intros Q. injection Q as ->.
    destruct Y as [[Y|Y]|[[[Y|[_ [Y _]]] _]|Y]]; try discriminate.
    apply Y. cbn. tauto.
  - apply succ_or_not_some, spanned_type_complete, T.
Qed.

Lemma node_through nodes st sn si R ty nm l nd rest :
  opt_type_at st ty -> ident_at (chars sn) (chars (si ++ R)) nm -> items_at true si R l ->
  follow (chars R) -> good (node_ nodes (st ++ sn ++ si ++ R)) nd rest ->
  exists l1 r3 oc r2 z r5 w, chain item_loop R l1 r3 /\ good (opt_children nodes r3) oc r2
    /\ good (p_repeated node_space r2) z r5 /\ good (node_terminator r5) w rest.
Proof.
  intros OT Id It F G. rewrite node_eq in G. apply good_map in G. destruct G as [x [G ->]].
  apply good_then_ignore in G. destruct G as [y [r1 [G Gt]]].
  apply good_then in G. destruct G as [a1 [oc [r2 [G [Gc ->]]]]].
  apply good_then in G. destruct G as [a2 [items [r3 [G [Gi ->]]]]].
  apply good_then in G. destruct G as [ty' [nm' [r4 [Gy [Gn ->]]]]].
  apply good_then in Gt. destruct Gt as [z1 [z2 [r5 [Gs [Gt _]]]]].
  destruct (good_fun _ _ _ _ _ Gy (type_through _ _ _ _ _ OT Id _)) as [_ ->].
  assert (succ (p_spanned ident (sn ++ si ++ R)) (Spanned (span_of sn) nm) (si ++ R)) as Sn.
  { apply succ_spanned; [apply ne_chars; eapply ident_ne; eauto|].
    apply ident_complete; [exact Id|]. apply follow_digit, (items_follow _ _ _ _ It F). }
  destruct (good_fun _ _ _ _ _ Gn Sn) as [_ ->].
  destruct (items_chain _ _ _ It F) as [is Ch].
  rewrite node_items_eq in Gi. apply good_repeated in Gi. destruct Gi as [Gi Fi].
  destruct (chain_through _ _ _ _ Ch _ _ Gi Fi) as [l1 C1].
  exists l1, r2, oc, r1, z1, r5, z2. auto.
Qed.

(** What begins with a slash and a dash, a brace or an element does not end a
    node. *)
Lemma no_terminator (ts : toks) u rest c t : good (node_terminator ts) u rest ->
  chars ts = c :: t -> item_char c \/ c = 0x7B%N \/ (c = 0x2F%N /\ hd_error t = Some 0x2D%N) -> False.
Proof.
  intros G X K. apply terminator_sound in G. destruct G as [s [-> T]].
  apply terminator_hd in T. rewrite chars_app in X.
  destruct T as [[Y Z]|[[v Y]|[c' [v [Y Z]]]]]; rewrite Y in X; cbn [app] in X.
  - rewrite Z in X. discriminate.
  - injection X as <- <-. destruct K as [[_ [_ K]]|[K|[_ K]]]; [|discriminate..].
    apply K. cbn. tauto.
  - injection X as <- <-. destruct K as [[K1 [K2 K]]|[->|[-> _]]].
    + destruct Z as [Z|Z]; [auto|]. apply K. subst. cbn. tauto.
    + destruct Z as [Z|Z]; [wsx|discriminate].
    + destruct Z as [Z|Z]; [wsx|discriminate].
Qed.

Lemma dashed_hd d (x : toks) c t : dashed_at d x -> chars x = c :: t ->
  item_char c \/ c = 0x7B%N ->
  exists c' t', chars (d ++ x) = c' :: t'
    /\ (item_char c' \/ c' = 0x7B%N \/ (c' = 0x2F%N /\ hd_error t' = Some 0x2D%N)).
Proof.
  intros [_ [->|D]] X K.
  - exists c, t. cbn [app]. tauto.
  - apply slashdash_hd in D. destruct D as [v V]. exists 0x2F%N, (0x2D%N :: v). auto.
Qed.

Lemma dashed_ns_stop d (x : toks) c t : dashed_at d x -> chars x = c :: t ->
  item_char c \/ c = 0x7B%N -> ns_stop (chars (d ++ x)) /\ ns_stop (chars x)
    /\ hd_error (chars x) <> Some 0x2F%N.
Proof.
  intros [W D] X K. rewrite X in W.
  assert (c <> 0x2F%N /\ c <> 0x5C%N) as [A B].
  { destruct K as [[_ [_ K]]| ->]; [|split; discriminate].
    split; intros ->; apply K; cbn; tauto. }
  assert (ns_stop (chars x)) as N by (rewrite X; apply ns_stop_start; [exact A|exact B|exact W]).
  split; [|split; [exact N|rewrite X; cbn; congruence]].
  destruct D as [->|D]; [exact N|apply (slashdash_ns_stop true), D].
Qed.

Lemma poa_through d (x : toks) c t i r : dashed_at d x -> chars x = c :: t -> item_char c ->
  good (prop_or_arg (d ++ x)) i r -> exists j, good (prop_or_arg_inner x) j r.
Proof.
  intros D X K G. destruct (dashed_ns_stop d x c t D X (or_introl K)) as [_ [N H]].
  rewrite poa_eq in G. apply good_or in G. destruct D as [_ [->|D]].
  - cbn [app] in G. destruct G as [G|[G _]]; [|eauto].
    apply good_map in G. destruct G as [j [G ->]].
    apply good_ignore_then in G. destruct G as [u [r1 [G1 G2]]].
    apply good_ignore_then in G1. destruct G1 as [w [r2 [G0 G1]]].
    exfalso. pose proof (dash_parts_sound _ _ _ _ _ G0 G1) as [d [Q D]].
    apply slashdash_hd in D. destruct D as [v V]. apply H. rewrite Q, V. reflexivity.
  - destruct (dash_parts_complete d x D N) as [r1 [l [S1 S2]]].
    destruct G as [G|[G F]].
    + apply good_map in G. destruct G as [j [G ->]].
      apply good_ignore_then in G. destruct G as [u [r2 [G1 G2]]].
      destruct (good_fun _ _ _ _ _ G1 (succ_ignore_then _ _ _ _ _ _ _ S1 S2)) as [_ ->]. eauto.
    + exfalso. apply slashdash_hd in D. destruct D as [v V].
      eapply good_failed; [exact G|].
      eapply rej_failed_hd; [apply rej_prop_or_arg_inner|rewrite V; reflexivity|reflexivity].
Qed.

(** The children that begin with a brace, or are not there. *)
Lemma children_through nodes sb d (x : toks) c t oc r2 : nspaces true sb (d ++ x) ->
  dashed_at d x -> chars x = c :: t -> item_char c \/ c = 0x7B%N ->
  good (opt_children nodes (sb ++ d ++ x)) oc r2 ->
  r2 = sb ++ d ++ x \/ exists l, good (braced_nodes nodes x) l r2.
Proof.
  intros Ns D X K G. rewrite opt_children_eq in G. apply good_or_not in G.
  destruct G as [[a [-> G]]|[_ [G _]]]; [|auto]. right.
  destruct (dashed_ns_stop d x c t D X K) as [N1 [N2 H]].
  apply good_then in G. destruct G as [dd [b [r1 [G1 [G2 ->]]]]].
  apply good_ignore_then in G1. destruct G1 as [y [r3 [G0 G1]]].
  destruct (node_spaces_complete sb (d ++ x) Ns N1) as [u L].
  destruct (good_fun _ _ _ _ _ G0 L) as [_ ->].
  destruct (slashdash_through d x D N2 H) as [o S].
  destruct (good_fun _ _ _ _ _ G1 S) as [_ ->].
  apply good_map_with_span in G2. destruct G2 as [l [G2 _]]. eauto.
Qed.

Lemma end_through sb d (x : toks) c t z r5 w rest : nspaces true sb (d ++ x) ->
  dashed_at d x -> chars x = c :: t -> item_char c \/ c = 0x7B%N ->
  good (p_repeated node_space (sb ++ d ++ x)) z r5 -> good (node_terminator r5) w rest -> False.
Proof.
  intros Ns D X K G1 G2. destruct (dashed_ns_stop d x c t D X K) as [N1 _].
  destruct (node_spaces_complete sb (d ++ x) Ns N1) as [u L].
  destruct (good_fun _ _ _ _ _ G1 L) as [_ ->].
  destruct (dashed_hd d x c t D X K) as [c' [t' [X' K']]].
  eapply no_terminator; eassumption.
Qed.

(** A node of which the header, some elements, spaces and perhaps a slash and a
    dash are given, with an element after that. *)
Lemma node_item n st sn si sp d (x : toks) ty nm l c t nd rest :
  opt_type_at st ty -> ident_at (chars sn) (chars (si ++ sp ++ d ++ x)) nm ->
  items_at true si (sp ++ d ++ x) l -> sp <> [] -> nspaces true sp (d ++ x) ->
  dashed_at d x -> chars x = c :: t -> item_char c ->
  good (node_ (nodes_rec n) (st ++ sn ++ si ++ sp ++ d ++ x)) nd rest ->
  exists i r, good (prop_or_arg_inner x) i r /\ follow (chars r).
Proof.
  intros OT Id It Ne Ns D X K G.
  assert (follow (chars (sp ++ d ++ x))) as F.
  { apply (follow_spaces true); [exact Ns|]. intros Q. congruence. }
  destruct (node_through _ _ _ _ _ _ _ _ _ _ OT Id It F G)
    as [l1 [r3 [oc [r2 [z [r5 [w [Ch [Gc [Gs Gt]]]]]]]]]].
  inversion Ch as [|ts a r1 l' r' Gi Ch']; subst.
  - exfalso. destruct (children_through _ _ _ _ _ _ _ _ Ns D X (or_introl K) Gc) as [->|[b B]].
    + eapply end_through; try eassumption. left. exact K.
    + eapply good_failed; [exact B|]. apply braced_failed. rewrite X. cbn. intros Q.
      injection Q as ->. apply K. cbn. tauto.
  - destruct (dashed_ns_stop d x c t D X (or_introl K)) as [N1 _].
    rewrite item_loop_eq in Gi. apply good_ignore_then in Gi. destruct Gi as [y [r6 [G1 G2]]].
    destruct (node_spaces1_complete sp (d ++ x) Ns N1 Ne) as [u L].
    destruct (good_fun _ _ _ _ _ G1 L) as [_ ->].
    destruct (poa_through d x c t a r1 D X K G2) as [j J]. exists j, r1. split; [exact J|].
    inversion Ch' as [|ts a' r1' l'' r' Gi Ch'']; subst.
    + apply (opt_children_sound _ _ _ _ (nodes_rec_sound n)) in Gc. destruct Gc as [sc [-> C]].
      apply node_spaces_sound in Gs. destruct Gs as [ss [-> [Ns' W]]].
      apply terminator_sound in Gt. destruct Gt as [sm [-> T]].
      eapply follow_children; eassumption.
    + rewrite item_loop_eq in Gi. apply good_ignore_then in Gi. destruct Gi as [y' [r6 [G3 G4]]].
      apply node_spaces1_sound in G3. destruct G3 as [s [-> [Ns' [W Ne']]]].
      apply (follow_spaces false); [exact Ns'|]. intros Q. congruence.
Qed.

(** A node of which the type is given, or that has none. *)
Lemma node_name n st (x : toks) ty nd rest : opt_type_at st ty ->
  hd_error (chars x) <> Some 0x28%N -> good (node_ (nodes_rec n) (st ++ x)) nd rest ->
  exists nm r, good (ident x) nm r /\ follow (chars r).
Proof.
  intros OT Hx G. rewrite node_eq in G. apply good_map in G. destruct G as [y [G ->]].
  apply good_then_ignore in G. destruct G as [y' [r1 [G Gt]]].
  apply good_then in G. destruct G as [a1 [oc [r2 [G [Gc ->]]]]].
  apply good_then in G. destruct G as [a2 [items [r3 [G [Gi ->]]]]].
  apply good_then in G. destruct G as [ty' [nm' [r4 [Gy [Gn ->]]]]].
  apply good_then in Gt. destruct Gt as [z1 [z2 [r5 [Gs [Gt _]]]]].
  assert (succ (p_or_not (p_spanned type_name) (st ++ x)) ty x) as Sy.
  { destruct OT as [|s ty T].
    - cbn [app]. apply succ_or_not_none, failed_map_with_span, type_name_failed, Hx.
    - apply succ_or_not_some, spanned_type_complete, T. }
  destruct (good_fun _ _ _ _ _ Gy Sy) as [_ ->].
  apply good_map_with_span in Gn. destruct Gn as [nm [Gn _]]. exists nm, r3. split; [exact Gn|].
  apply (opt_children_sound _ _ _ _ (nodes_rec_sound n)) in Gc. destruct Gc as [sc [-> C]].
  apply node_spaces_sound in Gs. destruct Gs as [ss [-> [Ns' W]]].
  apply terminator_sound in Gt. destruct Gt as [sm [-> T]].
  apply node_items_sound in Gi. destruct Gi as [si [-> I]].
  eapply items_follow; [exact I|]. eapply follow_children; eassumption.
Qed.

(** ** Lists of nodes *)

(** A list of nodes cannot be read to a closing brace or to the end from here. *)
Definition stuck (x : toks) : Prop :=
  ls_stop (chars x) /\
  forall n, len x <= n -> forall sp, lspaces true sp x ->
  exists items r y x1,
    ssepc (item_parser (nodes_rec n)) (p_repeated line_space) (sp ++ x) items r
    /\ succ (p_repeated line_space r) y x1
    /\ (forall a q, ~ good (item_parser (nodes_rec n) x1) a q) /\ ~ closing_at x1.

Lemma stuck_nodes x sp n l rest : stuck x -> lspaces true sp x -> len x <= n ->
  good (nodes_rec (S n) (sp ++ x)) l rest -> ~ closing_at rest.
Proof.
  intros [_ H] L Hn G. destruct (H n Hn sp L) as [items [r [y [x1 [S1 [S2 [N C]]]]]]].
  change (nodes_rec (S n)) with (nodes_body (@nodes_rec Sp E n)) in G. unfold nodes_body in G.
  apply good_map in G. destruct G as [is [G _]].
  rewrite (separated_stuck _ _ _ _ _ lines_clean S1 _ _ S2 N _ _ G). exact C.
Qed.

Lemma stuck_document x sp D rest : stuck x -> lspaces true sp x ->
  ~ good (document_ (sp ++ x)) D rest.
Proof.
  intros H L G. unfold document_ in G. apply good_then_ignore in G. destruct G as [u [r [G1 G2]]].
  apply good_end in G2. destruct G2 as [-> ->].
  refine (stuck_nodes x sp _ _ _ H L _ G1 (or_introl eq_refl)).
  rewrite app_length. lia.
Qed.

(** The beginning of a node, with a slash and a dash before it or not. *)
Lemma begin_ls_stop d (x : toks) c t : dashed_at d x -> chars x = c :: t ->
  item_char c -> c <> 0x7D%N -> ls_stop (chars (d ++ x)) /\ ~ closing_at (d ++ x).
Proof.
  intros [W D] X [K1 [K2 K3]] K4. destruct D as [->|D].
  - cbn [app]. assert (x <> []) as Ne by (intros ->; discriminate). rewrite X.
    assert (c <> 0x2F%N) as A by (intros ->; apply K3; cbn; tauto). split.
    + split; [exact K1|]. split; [intros [z Z]; injection Z as -> _; auto|].
      split; [intros [z Z]; injection Z as -> _; auto|exact K2].
    + intros [Q|Q]; [auto|]. rewrite X in Q. injection Q as Q. auto.
  - apply slashdash_hd in D. destruct D as [v V]. rewrite V. split.
    + split; [cbn; wsx|]. split; [intros [z Z]; discriminate|].
      split; [intros [z Z]; discriminate|wsx].
    + intros [Q|Q]; [|rewrite V in Q; discriminate]. rewrite Q in V. discriminate.
Qed.

Lemma bad_node_stuck d (x : toks) c t : dashed_at d x -> chars x = c :: t -> item_char c ->
  c <> 0x7D%N -> (forall n nd rest, len x <= n -> ~ good (node_ (nodes_rec n) x) nd rest) ->
  stuck (d ++ x).
Proof.
  intros D X K K' H. destruct (begin_ls_stop d x c t D X K K') as [LS C].
  split; [exact LS|]. intros n Hn sp L.
  destruct (line_spaces_complete sp (d ++ x) L LS) as [y Y].
  exists [], (sp ++ d ++ x), y, (d ++ x). split; [constructor|]. split; [exact Y|].
  split; [|exact C]. intros a q G. rewrite item_parser_eq in G.
  apply good_then in G. destruct G as [o [b [r [G1 [G2 _]]]]].
  destruct (dashed_ns_stop d x c t D X (or_introl K)) as [_ [N Hd]].
  destruct (slashdash_through d x D N Hd) as [o' S].
  destruct (good_fun _ _ _ _ _ G1 S) as [_ ->].
  apply good_map_with_span in G2. destruct G2 as [nd [G2 _]].
  refine (H n nd q _ G2). rewrite app_length in Hn. lia.
Qed.

(** How a node begins. *)
Lemma start_item_char c : (c = 0x28%N \/ sign_char c \/ ident_start c \/ c = 0x22%N) ->
  ~ In c ws_chars -> item_char c /\ c <> 0x7D%N.
Proof.
  intros Y Wc. destruct (start_ls_stop c [] Y Wc) as [Lc [C1 C2]]. split.
  - split; [exact Wc|]. split; [apply Lc|]. intros I. cbn in I.
    destruct I as [<-|[<-|[<-|[<-|[]]]]]; try congruence.
    + destruct Y as [Y|[[Y|Y]|[[[Y|[_ [Y _]]] _]|Y]]]; try discriminate. apply Y. cbn. tauto.
    + destruct Y as [Y|[[Y|Y]|[[[Y|[_ [Y _]]] _]|Y]]]; try discriminate. apply Y. cbn. tauto.
  - intros ->. destruct Y as [Y|[[Y|Y]|[[[Y|[_ [Y _]]] _]|Y]]]; try discriminate.
    apply Y. cbn. tauto.
Qed.

Lemma header_char st sn r (R : toks) ty nm : opt_type_at st ty -> ident_at (chars sn) r nm ->
  not_ws (chars (st ++ sn ++ R)) ->
  exists c t, chars (st ++ sn ++ R) = c :: t /\ item_char c /\ c <> 0x7D%N.
Proof.
  intros OT Id W.
  assert (exists c t, chars (st ++ sn ++ R) = c :: t
    /\ (c = 0x28%N \/ sign_char c \/ ident_start c \/ c = 0x22%N)) as [c [t [X Y]]].
  { destruct OT as [|s ty T].
    - apply ident_at_start in Id. destruct Id as [c [v [X Y]]]. cbn [app].
      rewrite chars_app, X. exists c. eexists. split; [reflexivity|tauto].
    - apply type_start in T. destruct T as [u T]. rewrite chars_app, T.
      exists 0x28%N. eexists. split; [reflexivity|tauto]. }
  rewrite X in W. exists c, t. split; [exact X|]. apply start_item_char; assumption.
Qed.

(** Nodes before it do not help. *)
Lemma node_stuck d s sp (x : toks) nd : dashed_at d (s ++ sp ++ x) ->
  node_at true s (sp ++ x) nd -> lspaces true sp x -> stuck x -> stuck (d ++ s ++ sp ++ x).
Proof.
  intros D Nd L [LS H].
  pose proof (node_start_facts _ _ _ _ Nd) as [c [u [X Y]]].
  assert (chars (s ++ sp ++ x) = c :: u ++ chars (sp ++ x)) as X'
    by (rewrite chars_app, X; reflexivity).
  assert (~ In c ws_chars) as Wc by (destruct D as [W _]; rewrite X' in W; exact W).
  destruct (start_item_char c Y Wc) as [K K'].
  destruct (begin_ls_stop d _ c _ D X' K K') as [LS' _].
  destruct (dashed_ns_stop d _ c _ D X' (or_introl K)) as [_ [N Hd]].
  assert (s <> []) as Ne by (apply ne_chars; rewrite X; discriminate).
  split; [exact LS'|]. intros n Hn sp0 L0. rewrite !app_length in Hn.
  destruct (H n ltac:(lia) sp L) as [items [r [y [x1 [S1 [S2 [B C]]]]]]].
  destruct (line_spaces_complete sp0 _ L0 LS') as [y0 Y0].
  destruct (slashdash_through d _ D N Hd) as [o So].
  exists ((o, Spanned (span_of s) nd) :: items), r, y, x1.
  split; [|split; [exact S2|split; [exact B|exact C]]].
  econstructor; [exact Y0| | |exact S1].
  - rewrite item_parser_eq. eapply succ_then; [exact So|].
    apply succ_spanned; [exact Ne|].
    apply (proj1 complete_all _ _ _ Nd). lia.
  - rewrite !app_length. destruct s; [congruence|]. cbn [List.length]. lia.
Qed.

(** Nor does being inside a node. *)
Lemma children_stuck d st sn si sb d' sp (x : toks) (o : tok Sp) ty nm l :
  fst o = 0x7B%N ->
  dashed_at d (st ++ sn ++ si ++ sb ++ d' ++ o :: sp ++ x) ->
  opt_type_at st ty -> ident_at (chars sn) (chars (si ++ sb ++ d' ++ o :: sp ++ x)) nm ->
  items_at true si (sb ++ d' ++ o :: sp ++ x) l -> nspaces true sb (d' ++ o :: sp ++ x) ->
  dashed_at d' (o :: sp ++ x) -> lspaces true sp x -> stuck x ->
  stuck (d ++ st ++ sn ++ si ++ sb ++ d' ++ o :: sp ++ x).
Proof.
  intros O D OT Id It Ns D' L St.
  set (R := o :: sp ++ x) in *.
  assert (chars R = 0x7B%N :: chars (sp ++ x)) as XR
    by (unfold R; rewrite chars_c, O; reflexivity).
  assert (follow (chars (sb ++ d' ++ R))) as F.
  { apply (follow_spaces true); [exact Ns|]. intros _. destruct D' as [_ [->|D']].
    - cbn [app]. rewrite XR. cbn. tauto.
    - apply slashdash_hd in D'. destruct D' as [v V].
      assert (follow (0x2F%N :: 0x2D%N :: v)) as Z by (cbn; tauto). rewrite <- V in Z. exact Z. }
  destruct (header_char st sn _ (si ++ sb ++ d' ++ R) ty nm OT Id (proj1 D))
    as [c [t [X [K K']]]].
  eapply bad_node_stuck; [exact D|exact X|exact K|exact K'|].
  intros n nd rest Hn G.
  destruct (node_through _ _ _ _ _ _ _ _ _ _ OT Id It F G)
    as [l1 [r3 [oc [r2 [z [r5 [w [Ch [Gc [Gs Gt]]]]]]]]]].
  inversion Ch as [|ts a r1 l' r' Gi Ch']; subst.
  - destruct (children_through _ _ _ _ _ _ _ _ Ns D' XR (or_intror eq_refl) Gc) as [->|[b B]].
    + eapply end_through; try eassumption. right. reflexivity.
    + rewrite braced_eq in B. apply good_ignore_then in B. destruct B as [y [r1 [B1 B2]]].
      apply good_just in B1. destruct B1 as [sq [Q _]]. injection Q as _ <-.
      apply good_map_err_with_span, good_then_ignore in B2.
      destruct B2 as [v [r6 [B2 B3]]]. apply good_just in B3. destruct B3 as [sq' [-> ->]].
      assert (len R <= n) as Hr by (rewrite !app_length in Hn; lia).
      unfold R in Hr. cbn [List.length] in Hr. rewrite app_length in Hr.
      destruct n as [|n]; [lia|].
      refine (stuck_nodes x sp n _ _ St L _ B2 (or_intror eq_refl)). lia.
  - destruct (dashed_ns_stop d' R _ _ D' XR (or_intror eq_refl)) as [N1 _].
    rewrite item_loop_eq in Gi. apply good_ignore_then in Gi. destruct Gi as [y [r6 [G1 G2]]].
    assert (sb <> []) as Ne.
    { intros ->. eapply good_failed; [exact G1|].
      apply failed_repeat1; [discriminate|]. apply node_space_failed, N1. }
    destruct (node_spaces1_complete sb (d' ++ R) Ns N1 Ne) as [u Lu].
    destruct (good_fun _ _ _ _ _ G1 Lu) as [_ ->].
    eapply good_failed; [exact G2|]. destruct D' as [_ [->|D']].
    + apply (poa_failed 0x7B%N); [cbn [app]; rewrite XR; reflexivity|tauto].
    + apply poa_failed_skipped; [exact D'|rewrite XR; reflexivity].
Qed.

End Place.
