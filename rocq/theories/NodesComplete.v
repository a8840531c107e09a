(** Nodes and documents: whatever the grammar allows is parsed. *)

From Coq Require Import NArith ZArith PeanoNat List Bool String Lia ZifyBool.
From Verif Require Import Chars Ast Errors Chumsky Spans Grammar Safe GrammarSafe
  Near GrammarNear NodeSafe DocSafe Kdl KdlChars Good LexSpace LexLit LexIdent PropMap
  Items Nodes.
Import ListNotations.
Local Open Scope list_scope.

Scheme node_mut := Minimality for node_at Sort Prop
  with children_mut := Minimality for children_at Sort Prop
  with braces_mut := Minimality for braces_at Sort Prop
  with nodes_mut := Minimality for nodes_at Sort Prop
  with node_list_mut := Minimality for node_list_at Sort Prop.
Combined Scheme kdl_mut from node_mut, children_mut, braces_mut, nodes_mut, node_list_mut.

Section Complete.
Context {Sp : Type} {E : env Sp}.

Notation parser := (parser Sp).
Notation toks := (toks Sp).
Notation len := (@List.length (tok Sp)).

(** ** What follows *)

Lemma many_hd (R : text -> text -> Prop) (P : char -> Prop) s rest : many R s rest ->
  (forall a b, R a b -> exists c t, a = c :: t /\ P c) ->
  s = [] \/ exists c t, s = c :: t /\ P c.
Proof.
  intros H K. destruct H as [|s t rest H _]; [auto|]. right.
  apply K in H. destruct H as [c [u [-> H]]]. exists c, (u ++ t). auto.
Qed.

Lemma nspaces_hd st s (rest : toks) : nspaces st s rest ->
  s = [] \/ exists c t, chars s = c :: t /\ (In c ws_chars \/ c = 0x2F%N \/ c = 0x5C%N).
Proof.
  intros H. apply many_hd with (P := fun c => In c ws_chars \/ c = 0x2F%N \/ c = 0x5C%N) in H.
  - destruct H as [H|H]; [left; apply chars_nil, H|right; exact H].
  - intros a b X. exact (nspace_start _ _ _ X).
Qed.

Lemma follow_spaces st s (rest : toks) : nspaces st s rest -> (s = [] -> follow (chars rest)) ->
  follow (chars (s ++ rest)).
Proof.
  intros H K. apply nspaces_hd in H. destruct H as [->|[c [t [X Y]]]]; [apply K; reflexivity|].
  rewrite chars_app, X. cbn [app follow]. destruct Y as [Y|Y]; [auto|]. right. right. cbn.
  destruct Y; subst; auto.
Qed.

Lemma terminator_hd s rest : terminator_at s rest ->
  (s = [] /\ rest = []) \/ (exists t, s = (0x2F :: 0x2F :: t)%N) \/
  (exists c t, s = c :: t /\ (In c newline_chars \/ c = 0x3B%N)).
Proof.
  destruct 1 as [s rest N|s rest C|rest|]; auto.
  - apply newline_at_ne in N. destruct N as [c [t [-> H]]]. right. right. exists c, t. auto.
  - apply line_comment_ne in C. auto.
  - right. right. exists 0x3B%N, []. auto.
Qed.

Lemma follow_terminator (s rest : toks) : terminator_at (chars s) (chars rest) ->
  follow (chars (s ++ rest)).
Proof.
  intros H. apply terminator_hd in H. rewrite chars_app.
  destruct H as [[-> ->]|[[t ->]|[c [t [-> H]]]]]; cbn [app follow]; [exact I| |].
  - right. right. cbn. auto.
  - right. destruct H as [H|H]; [auto|right; cbn; subst; auto].
Qed.

Lemma ns_stop_terminator (s rest : toks) : terminator_at (chars s) (chars rest) ->
  ns_stop (chars (s ++ rest)).
Proof.
  intros H. apply terminator_hd in H. rewrite chars_app.
  destruct H as [[-> ->]|[[t ->]|[c [t [-> H]]]]]; cbn [app].
  - split; [exact I|]. split; [intros [x X]; discriminate|discriminate].
  - split; [cbn; wsx|]. split; [intros [x X]; discriminate|discriminate].
  - apply ns_stop_start; wsx.
Qed.

Lemma poa_failed c (ts : toks) : hd_error (chars ts) = Some c ->
  In c newline_chars \/ c = 0x3B%N \/ c = 0x7B%N -> failed (prop_or_arg ts).
Proof.
  intros H K. eapply rej_failed_hd; [apply rej_prop_or_arg|exact H|].
  destruct K as [K|[->| ->]]; [|reflexivity..].
  unfold newline_chars in K. cbn [In] in K.
  destruct K as [<-|[<-|[<-|[<-|[<-|[<-|[]]]]]]]; reflexivity.
Qed.

Lemma poa_eq : @prop_or_arg Sp E =
  p_or
    (p_map (fun _ => Ignore_)
      (p_ignore_then
        (p_ignore_then (begin_comment 0x2D%N) (p_repeated node_space))
        prop_or_arg_inner))
    prop_or_arg_inner.
Proof. reflexivity. Qed.

Lemma poa_failed_comment (ts : toks) t : chars ts = (0x2F :: 0x2F :: t)%N ->
  failed (prop_or_arg ts).
Proof.
  intros H. rewrite poa_eq. apply failed_or.
  - apply failed_map, failed_ignore_then1, failed_ignore_then1, failed_begin_comment.
    rewrite H. intros [x X]. discriminate.
  - eapply rej_failed_hd; [apply rej_prop_or_arg_inner|rewrite H; reflexivity|reflexivity].
Qed.

Lemma poa_failed_skipped d (ts : toks) : slashdash_at true d ts ->
  hd_error (chars ts) = Some 0x7B%N -> failed (prop_or_arg (d ++ ts)).
Proof.
  intros D H. rewrite poa_eq.
  assert (hd_error (chars (d ++ ts)) = Some 0x2F%N) as Hd.
  { inversion D; subst. cbn [app]. rewrite chars_c. cbn [hd_error]. f_equal. assumption. }
  assert (ns_stop (chars ts)) as Ns.
  { destruct (chars ts) as [|c t]; [discriminate|]. injection H as ->.
    apply ns_stop_start; wsx. }
  destruct (dash_parts_complete d ts D Ns) as [r1 [l [S1 S2]]].
  apply failed_or.
  - apply failed_map. eapply failed_ignore_then2; [eapply succ_ignore_then; [exact S1|exact S2]|].
    eapply rej_failed_hd; [apply rej_prop_or_arg_inner|exact H|reflexivity].
  - eapply rej_failed_hd; [apply rej_prop_or_arg_inner|exact Hd|reflexivity].
Qed.

Lemma poa_failed_eof : failed (@prop_or_arg Sp E []).
Proof. eapply rej_failed; [apply rej_prop_or_arg|reflexivity]. Qed.

Lemma poa_failed_terminator (s rest : toks) : terminator_at (chars s) (chars rest) ->
  failed (prop_or_arg (s ++ rest)).
Proof.
  intros H. apply terminator_hd in H.
  destruct H as [[X Y]|[[t X]|[c [t [X Y]]]]].
  - apply chars_nil in X, Y. subst. apply poa_failed_eof.
  - apply (poa_failed_comment _ (t ++ chars rest)). rewrite chars_app, X. reflexivity.
  - apply (poa_failed c); [rewrite chars_app, X; reflexivity|tauto].
Qed.

(** The elements of a node end here. *)
Definition items_end (R : toks) : Prop :=
  exists sp X, R = sp ++ X /\ nspaces true sp X /\ ns_stop (chars X) /\ failed (prop_or_arg X).

Definition item_loop : parser (@prop_or_arg_t Sp) :=
  p_ignore_then (p_repeat 1 None node_space) prop_or_arg.
Lemma node_items_eq : @node_items Sp E = p_repeated item_loop.
Proof. reflexivity. Qed.
Lemma item_loop_eq : item_loop = p_ignore_then (p_repeat 1 None node_space) prop_or_arg.
Proof. reflexivity. Qed.

Lemma items_end_failed R : items_end R -> failed (item_loop R).
Proof.
  intros [sp [X [-> [N [S F]]]]]. rewrite item_loop_eq.
  destruct sp as [|c sp].
  - apply failed_ignore_then1, failed_repeat1; [discriminate|]. apply node_space_failed, S.
  - destruct (node_spaces1_complete (c :: sp) X N S) as [l L]; [discriminate|].
    eapply failed_ignore_then2; [exact L|exact F].
Qed.

Lemma item_ns_stop s (R : toks) i : item_at true s R i -> not_ws (chars (s ++ R)) ->
  ns_stop (chars (s ++ R)).
Proof.
  intros H W. inversion H as [s0 r0 i0 P|d s0 r0 i0 D P]; subst.
  - apply item_start_at in P. destruct P as [c [u [X Y]]].
    apply item_start_facts in Y. rewrite chars_app, X in *. cbn [app] in *.
    apply ns_stop_start; [apply Y|apply Y|exact W].
  - inversion D as [[a sa] [b sb] sd rr A B Ns Wd]; subst. cbn [fst] in A, B. subst.
    cbn [app] in *. rewrite !chars_c in *. cbn [fst] in *.
    split; [exact W|]. split; [intros [x X]; discriminate|discriminate].
Qed.

Lemma items_follow st s (R : toks) l : items_at st s R l -> follow (chars R) ->
  follow (chars (s ++ R)).
Proof.
  intros H F. inversion H as [|sp s0 t r i l0 Ne N W I T]; subst; [exact F|].
  rewrite <- app_assoc. apply (follow_spaces st).
  - rewrite <- app_assoc. exact N.
  - intros ->. congruence.
Qed.

Lemma items_complete s R l : items_at true s R l -> follow (chars R) -> items_end R ->
  exists is, succ (node_items (s ++ R)) is R /\ map entry_of is = l.
Proof.
  intros H F En. rewrite node_items_eq.
  assert (exists is, schain item_loop (s ++ R) is R /\ map entry_of is = l) as [is [Ch X]].
  { induction H as [R|sp s t R i l Ne N W I T IH].
    - exists []. split; [constructor|reflexivity].
    - destruct (IH F En) as [is [Ch X]].
      destruct (item_complete s i (t ++ R) I (items_follow _ _ _ _ T F)) as [j [S J]].
      destruct (node_spaces1_complete sp (s ++ t ++ R) N (item_ns_stop _ _ _ I W) Ne) as [u L].
      exists (j :: is). split; [|cbn [map]; congruence].
      rewrite <- !app_assoc. econstructor; [| |exact Ch].
      + rewrite item_loop_eq. eapply succ_ignore_then; [exact L|exact S].
      + rewrite !app_length. destruct sp; [congruence|]. cbn [List.length]. lia. }
  exists is. split; [|exact X]. apply succ_repeated; [exact Ch|apply items_end_failed, En].
Qed.

(** ** Children *)

Lemma braces_hd st b (R : toks) l : braces_at st b R l -> hd_error (chars (b ++ R)) = Some 0x7B%N.
Proof.
  intros H. inversion H; subst. cbn [app]. rewrite chars_c. cbn [hd_error]. f_equal. assumption.
Qed.

Lemma hd_ns_stop (ts : toks) : hd_error (chars ts) = Some 0x7B%N -> ns_stop (chars ts).
Proof.
  intros H. destruct (chars ts) as [|c t]; [discriminate|]. injection H as ->.
  apply ns_stop_start; wsx.
Qed.

Lemma slashdash_ns_stop st d (R : toks) : slashdash_at st d R -> ns_stop (chars (d ++ R)).
Proof.
  intros D. inversion D as [[a sa] [b sb] sd rr A B Ns Wd]; subst. cbn [fst] in A, B. subst.
  cbn [app] in *. rewrite !chars_c in *. cbn [fst] in *.
  split; [cbn; wsx|]. split; [intros [x X]; discriminate|discriminate].
Qed.

Lemma slashdash_hd st d (R : toks) : slashdash_at st d R ->
  exists t, chars (d ++ R) = (0x2F :: 0x2D :: t)%N.
Proof.
  intros D. inversion D as [[a sa] [b sb] sd rr A B Ns Wd]; subst. cbn [fst] in A, B. subst.
  cbn [app] in *. rewrite !chars_c in *. cbn [fst] in *. eauto.
Qed.

(** The part of a node after its elements. *)
Lemma tail_end sc ss sm (rest : toks) ch :
  children_at true sc (ss ++ sm ++ rest) ch -> nspaces true ss (sm ++ rest) ->
  terminator_at (chars sm) (chars rest) ->
  items_end (sc ++ ss ++ sm ++ rest) /\ follow (chars (sc ++ ss ++ sm ++ rest)).
Proof.
  intros C N T. inversion C as [R|sp b R l Ns B|sp d b R l Ns D B]; subst.
  - cbn [app]. split.
    + exists ss, (sm ++ rest). split; [reflexivity|]. split; [exact N|].
      split; [apply ns_stop_terminator, T|apply poa_failed_terminator, T].
    + apply (follow_spaces true); [exact N|]. intros _. apply follow_terminator, T.
  - pose proof (braces_hd _ _ _ _ B) as Hd. rewrite <- app_assoc. split.
    + exists sp, (b ++ ss ++ sm ++ rest). split; [reflexivity|]. split; [exact Ns|].
      split; [apply hd_ns_stop, Hd|]. apply (poa_failed 0x7B%N); auto.
    + apply (follow_spaces true); [exact Ns|]. intros _.
      destruct (chars (b ++ ss ++ sm ++ rest)); [discriminate|]. injection Hd as ->.
      cbn [follow]. right. right. cbn. auto.
  - pose proof (braces_hd _ _ _ _ B) as Hd. rewrite <- !app_assoc. split.
    + exists sp, (d ++ b ++ ss ++ sm ++ rest). split; [reflexivity|]. split; [exact Ns|].
      split; [apply (slashdash_ns_stop true), D|]. apply poa_failed_skipped; auto.
    + apply (follow_spaces true); [exact Ns|]. intros _.
      destruct (slashdash_hd _ _ _ D) as [t ->]. cbn [follow]. right. right. cbn. auto.
Qed.

Lemma slashdash_none (ts : toks) : ~ prefix [0x2F; 0x2D]%N (chars ts) ->
  succ (slashdash ts) None ts.
Proof.
  intros H. rewrite slashdash_eq. apply succ_or_not_none, failed_then_ignore1.
  apply failed_begin_comment, H.
Qed.

Lemma slashdash_some d (ts : toks) : slashdash_at true d ts -> ns_stop (chars ts) ->
  succ (slashdash (d ++ ts)) (Some tt) ts.
Proof.
  intros D N. rewrite slashdash_eq. apply succ_or_not_some.
  destruct (dash_parts_complete d ts D N) as [r1 [l [S1 S2]]].
  eapply succ_then_ignore; eauto.
Qed.

Lemma hd_no_dash (t : text) c : hd_error t = Some c -> c <> 0x2F%N ->
  ~ prefix [0x2F; 0x2D]%N t.
Proof. intros H N [x ->]. cbn in H. injection H as H. congruence. Qed.

Lemma braced_eq (nodes : parser (list (snode Sp))) : braced_nodes nodes =
  p_ignore_then (p_just 0x7B%N)
    (p_map_err_with_span braces_err (p_then_ignore nodes (p_just 0x7D%N))).
Proof. reflexivity. Qed.

Lemma braced_failed (nodes : parser (list (snode Sp))) ts :
  hd_error (chars ts) <> Some 0x7B%N -> failed (braced_nodes nodes ts).
Proof.
  intros H. rewrite braced_eq. apply failed_ignore_then1, failed_just_iff, H.
Qed.

Lemma terminator_no_brace (s rest : toks) : terminator_at (chars s) (chars rest) ->
  hd_error (chars (s ++ rest)) <> Some 0x7B%N /\ ~ prefix [0x2F; 0x2D]%N (chars (s ++ rest)).
Proof.
  intros H. apply terminator_hd in H. rewrite chars_app.
  destruct H as [[-> ->]|[[t ->]|[c [t [-> H]]]]]; cbn [app].
  - split; [discriminate|]. intros [x X]. discriminate.
  - split; [discriminate|]. intros [x X]. discriminate.
  - split; [|intros [x X]; injection X as -> _; wsx].
    cbn. intros X. injection X as ->. wsx.
Qed.

(** A node list ends before a closing brace or at the end. *)
Definition closing_at (rest : toks) : Prop :=
  rest = [] \/ hd_error (chars rest) = Some 0x7D%N.

Lemma closing_ls_stop rest : closing_at rest -> ls_stop (chars rest).
Proof.
  intros [->|H].
  - split; [exact I|]. split; [intros [x X]; discriminate|]. split; [intros [x X]; discriminate|exact I].
  - destruct (chars rest) as [|c t]; [discriminate|]. injection H as ->.
    split; [cbn; wsx|]. split; [intros [x X]; discriminate|]. split; [intros [x X]; discriminate|].
    wsx.
Qed.

Lemma item_parser_eq (nodes : parser (list (snode Sp))) :
  item_parser nodes = p_then slashdash (p_spanned (node_ nodes)).
Proof. reflexivity. Qed.

Lemma closing_fq (nodes : parser (list (snode Sp))) rest : closing_at rest ->
  fq (item_parser nodes rest).
Proof.
  intros H. rewrite item_parser_eq. eapply fq_then.
  - apply slashdash_none. destruct H as [->|H]; [intros [x X]; discriminate|].
    eapply hd_no_dash; [exact H|discriminate].
  - apply fq_spanned. eapply rej_fq; [apply rej_node|].
    destruct H as [->|H]; [reflexivity|]. destruct rest as [|[c sp] rest]; [discriminate|].
    injection H as ->. reflexivity.
Qed.

Definition node_c (s rest : toks) (nd : node Sp) : Prop :=
  forall n, len s <= n -> succ (node_ (nodes_rec n) (s ++ rest)) nd rest.
Definition children_c (sc R : toks) (ch : option (spanned (list (snode Sp)) Sp)) : Prop :=
  sc <> [] -> forall n, len sc <= n -> exists o,
  succ (opt_children (nodes_rec n) (sc ++ R)) o R /\ kept o = ch.
Definition braces_c (b R : toks) (l : list (snode Sp)) : Prop :=
  forall n, len b <= S n -> succ (braced_nodes (nodes_rec n) (b ++ R)) l R.
Definition nodes_c (s rest : toks) (l : list (snode Sp)) : Prop :=
  closing_at rest -> forall n, len s < n -> succ (nodes_rec n (s ++ rest)) l rest.
Definition list_c (s rest : toks) (l : list (snode Sp)) : Prop :=
  closing_at rest ->
  ls_stop (chars (s ++ rest)) /\
  forall n sp, len s <= n -> lspaces true sp (s ++ rest) ->
  exists items r x,
    ssepc (item_parser (nodes_rec n)) (p_repeated line_space) (sp ++ s ++ rest) items r
    /\ succ (p_repeated line_space r) x rest /\ flat_map keep_node items = l.

Lemma node_start_facts st s (rest : toks) nd : node_at st s rest nd ->
  exists c u, chars s = c :: u
    /\ (c = 0x28%N \/ sign_char c \/ ident_start c \/ c = 0x22%N).
Proof.
  intros H. inversion H as [st' sn si sc ss sm r ty nm l ps ch OT Id]; subst.
  inversion OT as [|s0 ty0 T]; subst.
  - cbn [app]. apply ident_at_start in Id. destruct Id as [c [u [X Y]]].
    rewrite chars_app, X. exists c, (u ++ chars (si ++ sc ++ ss ++ sm)). auto.
  - apply type_start in T. destruct T as [u T]. rewrite chars_app, T.
    exists 0x28%N, (u ++ chars (sn ++ si ++ sc ++ ss ++ sm)). auto.
Qed.

Lemma start_ls_stop c (t : text) : (c = 0x28%N \/ sign_char c \/ ident_start c \/ c = 0x22%N) ->
  ~ In c ws_chars -> ls_stop (c :: t) /\ c <> 0x2F%N /\ c <> 0x5C%N.
Proof.
  intros H W.
  assert (~ In c newline_chars /\ c <> 0x2F%N /\ c <> 0x5C%N) as [A [B C]].
  { destruct H as [->|[[->| ->]|[[[->|[_ [P [N _]]]] _]| ->]]]; try (split; [wsx|]; split; discriminate).
    split; [exact N|]. split; intros ->; apply P; cbn; tauto. }
  split; [|auto]. split; [exact W|]. split; [intros [x X]; injection X as -> _; auto|].
  split; [intros [x X]; injection X as -> _; auto|exact A].
Qed.

Lemma complete_all :
  (forall s rest nd, node_at true s rest nd -> node_c s rest nd) /\
  (forall s rest c, children_at true s rest c -> children_c s rest c) /\
  (forall s rest l, braces_at true s rest l -> braces_c s rest l) /\
  (forall s rest l, nodes_at true s rest l -> nodes_c s rest l) /\
  (forall s rest l, node_list_at true s rest l -> list_c s rest l).
Proof.
  apply kdl_mut.
  - (* node *)
    intros st sn si sc ss sm rest ty nm l ps ch OT Id It Ch IHc Ns Tm Pm n Hn.
    destruct (tail_end sc ss sm rest ch Ch Ns Tm) as [En Fo].
    destruct (items_complete si _ l It Fo En) as [is [Si Mi]].
    pose proof (items_follow _ _ _ _ It Fo) as Fn.
    assert (exists o, succ (opt_children (nodes_rec n) (sc ++ ss ++ sm ++ rest)) o (ss ++ sm ++ rest)
      /\ kept o = ch) as [o [So Ko]].
    { destruct sc as [|x sc]; [|apply IHc; [discriminate|rewrite !app_length in Hn; lia]].
      exists None. split.
      - rewrite opt_children_eq. apply succ_or_not_none.
        destruct (terminator_no_brace sm rest Tm) as [Nb Nd].
        destruct (node_spaces_complete ss (sm ++ rest) Ns (ns_stop_terminator _ _ Tm)) as [u L].
        eapply failed_then2; [eapply succ_ignore_then; [exact L|apply slashdash_none, Nd]|].
        apply failed_map_with_span, braced_failed, Nb.
      - inversion Ch as [R|sp b R l0 Nsp B Q|]; subst; [reflexivity| |].
        + exfalso. apply app_nil2 in Q. destruct Q as [_ ->]. inversion B.
        + match goal with Q : _ ++ _ ++ _ = [] |- _ => apply app_nil2 in Q; destruct Q as [_ Q];
            apply app_nil2 in Q; destruct Q as [-> _] end.
          match goal with D : slashdash_at _ [] _ |- _ => inversion D end. }
    destruct (node_spaces_complete ss (sm ++ rest) Ns (ns_stop_terminator _ _ Tm)) as [u L].
    rewrite node_eq. destruct (fold_items0 is) as [F1 F2]. rewrite Mi in F1, F2.
    rewrite (property_map_unique _ _ _ Pm F2), <- F1, <- Ko, <- make_node_eq.
    apply (succ_map make_node _ _ (ty, Spanned (span_of sn) nm, is, o)).
    rewrite <- !app_assoc. eapply succ_then_ignore.
    + eapply succ_then; [eapply succ_then; [eapply succ_then|exact Si]|exact So].
      * instantiate (1 := sn ++ si ++ sc ++ ss ++ sm ++ rest).
        destruct OT as [|s ty T].
        -- cbn [app]. apply succ_or_not_none, failed_map_with_span, type_name_failed.
           apply ident_at_start in Id. destruct Id as [c [v [X Y]]]. rewrite chars_app, X.
           cbn [app hd_error]. intros Q. injection Q as ->.
           destruct Y as [[Y|Y]|[[[Y|[_ [Y _]]] _]|Y]]; try discriminate.
           apply Y. cbn. tauto.
        -- apply succ_or_not_some, spanned_type_complete, T.
      * apply succ_spanned; [apply ne_chars; eapply ident_ne; eauto|].
        apply ident_complete; [exact Id|apply follow_digit, Fn].
    + eapply succ_then; [exact L|apply terminator_complete, Tm].
  - intros rest X. congruence.
  - (* children *)
    intros sp b rest l Ns B IH _ n Hn. rewrite app_length in Hn.
    pose proof (braces_hd _ _ _ _ B) as Hd.
    exists (Some (None, Spanned (span_of b) l)). split; [|reflexivity].
    rewrite opt_children_eq. apply succ_or_not_some. rewrite <- app_assoc.
    destruct (node_spaces_complete sp (b ++ rest) Ns (hd_ns_stop _ Hd)) as [u L].
    eapply succ_then; [eapply succ_ignore_then; [exact L|apply slashdash_none]|].
    + eapply hd_no_dash; [exact Hd|discriminate].
    + apply succ_spanned; [intros ->; inversion B|]. apply IH. lia.
  - intros sp d b rest l Ns D B IH _ n Hn. rewrite !app_length in Hn.
    pose proof (braces_hd _ _ _ _ B) as Hd.
    exists (Some (Some tt, Spanned (span_of b) l)). split; [|reflexivity].
    rewrite opt_children_eq. apply succ_or_not_some. rewrite <- !app_assoc.
    destruct (node_spaces_complete sp (d ++ b ++ rest) Ns (slashdash_ns_stop _ _ _ D)) as [u L].
    eapply succ_then; [eapply succ_ignore_then; [exact L|apply slashdash_some; [exact D|apply hd_ns_stop, Hd]]|].
    apply succ_spanned; [intros ->; inversion B|]. apply IH. lia.
  - (* braces *)
    intros [o so] s [c sc] rest l A B N IH n Hn. cbn [fst] in A, B. subst.
    cbn [List.length] in Hn. rewrite app_length in Hn. cbn [List.length] in Hn.
    rewrite braced_eq. cbn [app]. rewrite <- app_assoc. cbn [app].
    eapply succ_ignore_then; [apply succ_just|]. apply succ_map_err_with_span.
    eapply succ_then_ignore; [apply IH; [right; reflexivity|lia]|apply succ_just].
  - (* nodes *)
    intros sp s rest l L N IH C n Hn. destruct n as [|n]; [lia|].
    change (nodes_rec (S n)) with (nodes_body (@nodes_rec Sp E n)). unfold nodes_body.
    rewrite app_length in Hn. destruct (IH C) as [_ IH2].
    destruct (IH2 n sp ltac:(lia) L) as [items [r [x [S1 [S2 <-]]]]].
    apply (succ_map (flat_map keep_node)). rewrite <- app_assoc.
    eapply succ_separated; [exact S1|exact S2|apply closing_fq, C].
  - (* no node *)
    intros rest C. split; [apply closing_ls_stop, C|]. intros n sp _ L.
    destruct (line_spaces_complete sp rest L (closing_ls_stop _ C)) as [x X].
    exists [], (sp ++ rest), x. split; [constructor|]. split; [exact X|reflexivity].
  - (* a node *)
    intros s sp t rest nd l W Nd IHn L T IHt C.
    pose proof (node_start_facts _ _ _ _ Nd) as [c [u [X Y]]].
    assert (~ In c ws_chars) as Wc by (rewrite X in W; exact W).
    assert (ls_stop (chars ((s ++ sp ++ t) ++ rest))) as LS.
    { rewrite chars_app, chars_app, X. apply start_ls_stop; auto. }
    split; [exact LS|]. intros n sp0 Hn L0. rewrite !app_length in Hn.
    destruct (IHt C) as [_ IHt2]. destruct (IHt2 n sp ltac:(lia) L) as [items [r [x [S1 [S2 S3]]]]].
    destruct (line_spaces_complete sp0 _ L0 LS) as [y D].
    exists ((None, Spanned (span_of s) nd) :: items), r, x.
    split; [|split; [exact S2|cbn [flat_map]; rewrite S3; reflexivity]].
    assert (s <> []) as Ne by (apply ne_chars; rewrite X; discriminate).
    rewrite <- !app_assoc in *. econstructor; [exact D| | |exact S1].
    + rewrite item_parser_eq. eapply succ_then; [apply slashdash_none|].
      * rewrite chars_app, X. eapply hd_no_dash; [reflexivity|].
        apply (start_ls_stop c []); auto.
      * apply succ_spanned; [exact Ne|]. apply IHn. lia.
    + rewrite !app_length. destruct s; [congruence|]. cbn [List.length]. lia.
  - (* a node that is commented out *)
    intros d s sp t rest nd l D Nd IHn L T IHt C.
    pose proof (node_start_facts _ _ _ _ Nd) as [c [u [X Y]]].
    assert (~ In c ws_chars) as Wc.
    { pose proof (slashdash_not_ws _ _ _ D) as W. rewrite chars_app, X in W. exact W. }
    assert (ls_stop (chars ((d ++ s ++ sp ++ t) ++ rest))) as LS.
    { destruct (slashdash_hd _ _ _ D) as [v V]. rewrite <- !app_assoc. rewrite V.
      split; [cbn; wsx|]. split; [intros [z Z]; discriminate|].
      split; [intros [z Z]; discriminate|wsx]. }
    split; [exact LS|]. intros n sp0 Hn L0. rewrite !app_length in Hn.
    destruct (IHt C) as [_ IHt2]. destruct (IHt2 n sp ltac:(lia) L) as [items [r [x [S1 [S2 S3]]]]].
    destruct (line_spaces_complete sp0 _ L0 LS) as [y Dl].
    exists ((Some tt, Spanned (span_of s) nd) :: items), r, x.
    split; [|split; [exact S2|cbn [flat_map]; rewrite S3; reflexivity]].
    assert (s <> []) as Ne by (apply ne_chars; rewrite X; discriminate).
    rewrite <- !app_assoc in *. econstructor; [exact Dl| | |exact S1].
    + rewrite item_parser_eq. eapply succ_then; [apply slashdash_some; [exact D|]|].
      * rewrite chars_app, X. destruct (start_ls_stop c [] Y Wc) as [_ [A B]].
        apply ns_stop_start; auto.
      * apply succ_spanned; [exact Ne|]. apply IHn. lia.
    + rewrite !app_length. destruct s; [congruence|]. cbn [List.length]. lia.
Qed.

Lemma document_complete s d : document_at true s d -> succ (document_ s) d [].
Proof.
  intros H. destruct complete_all as [_ [_ [_ [K _]]]].
  specialize (K s [] d H (or_introl eq_refl) (S (len s)) ltac:(lia)).
  rewrite app_nil_r in K. unfold document_. eapply succ_then_ignore; [exact K|apply succ_end].
Qed.

End Complete.
