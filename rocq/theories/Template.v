(** What a text that begins in a known way can mean. *)

From Coq Require Import NArith PeanoNat List Bool String Lia.
From Coq Require Import ZifyBool.
From Verif Require Import Chars Ast Errors Chumsky Spans Grammar Kdl KdlText KdlChars Layout Good
  GrammarNear LexSpace LexLit LexIdent PropMap Items Nodes NodesComplete Erase Meaning LayoutMeans.
Import ListNotations.
Local Open Scope list_scope.

Section Template.
Context {Sp : Type} {E : env Sp}.
Notation toks := (toks Sp).
Variable st : bool.

Lemma lspace_start a b : lspace_at st a b ->
  exists c t, a = c :: t /\ (In c ws_chars \/ In c newline_chars \/ c = 0x2F%N).
Proof.
  destruct 1 as [s rest N|s rest W|s rest C].
  - apply newline_at_ne in N. destruct N as [c [t [-> H]]]. eauto 6.
  - destruct W as [c rest W|s rest B]; [eauto 6|]. apply block_hd in B. destruct B as [t ->].
    eauto 7.
  - apply line_comment_ne in C. destruct C as [t ->]. eauto 7.
Qed.

(** The first node of a document. *)
Lemma first_node (s : toks) D c x : document_at st s D -> chars s = c :: x ->
  ~ In c ws_chars -> ~ In c newline_chars -> c <> 0x2F%N ->
  exists s1 r n D', s = s1 ++ r /\ node_at st s1 r n /\ D = Spanned (span_of s1) n :: D'.
Proof.
  intros H X W N S. unfold document_at in H. inversion H as [sp s0 r0 l LS NL]; subst.
  assert (sp = []) as ->.
  { destruct sp as [|[a sa] sp]; [reflexivity|]. exfalso. unfold lspaces in LS.
    apply many_hd with (P := fun c => In c ws_chars \/ In c newline_chars \/ c = 0x2F%N) in LS.
    - destruct LS as [LS|[c' [t [LS P]]]]; [discriminate|]. rewrite chars_app, LS in X.
      injection X as -> _. tauto.
    - apply lspace_start. }
  cbn [app] in X |- *. inversion NL as [r|s1 sp t r n l Nw Nd LS1 Nl|d s1 sp t r n l Sd Nd LS1 Nl];
    subst.
  - discriminate.
  - rewrite app_nil_r in Nd. exists s1, (sp ++ t), n, l. auto.
  - exfalso. inversion Sd as [[a sa] [b sb] sd rr A B Ns Wd]; subst. cbn [fst] in *.
    cbn [app] in X. injection X as -> _. congruence.
Qed.

Lemma follow_children sc ss sm (rest : toks) ch : children_at st sc (ss ++ sm ++ rest) ch ->
  nspaces st ss (sm ++ rest) -> terminator_at (chars sm) (chars rest) ->
  follow (chars (sc ++ ss ++ sm ++ rest)).
Proof.
  intros C S T. inversion C as [r|sp b r l Ns B|sp d b r l Ns D B]; subst.
  - cbn [app]. eapply follow_spaces; [exact S|]. intros _. apply follow_terminator, T.
  - rewrite <- app_assoc. eapply follow_spaces; [exact Ns|]. intros _.
    apply braces_hd in B. destruct (chars (b ++ ss ++ sm ++ rest)); [exact I|].
    injection B as ->. cbn. tauto.
  - rewrite <- !app_assoc. eapply follow_spaces; [exact Ns|]. intros _.
    apply slashdash_hd in D. destruct D as [t ->]. cbn. tauto.
Qed.

Lemma follow_items si R l : items_at st si R l -> follow (chars R) -> follow (chars (si ++ R : toks)).
Proof.
  intros I F. destruct I as [R|sp s t R i l Ne Ns Nw It I]; [exact F|].
  rewrite <- !app_assoc. eapply follow_spaces; [exact Ns|]. intros X. contradiction.
Qed.

(** The parts of a node without a type. *)
Lemma node_parts (s r : toks) n c x : node_at st s r n -> chars (s ++ r) = c :: x ->
  c <> 0x28%N ->
  exists sn si R nm l ps ch, s ++ r = sn ++ si ++ R
    /\ ident_at (chars sn) (chars (si ++ R)) nm
    /\ items_at st si R l /\ follow (chars R) /\ follow (chars (si ++ R))
    /\ (si = [] -> exists sc ss sm, R = sc ++ ss ++ sm ++ r /\ children_at st sc (ss ++ sm ++ r) ch
          /\ nspaces st ss (sm ++ r) /\ terminator_at (chars sm) (chars r))
    /\ property_map (properties_of l) ps
    /\ n = Node None (Spanned (span_of sn) nm) (arguments_of l) ps ch.
Proof.
  intros H X C. destruct H as [st' sn si sc ss sm r ty nm l ps ch T I It Ch Ns Tm P].
  assert (st' = [] /\ ty = None) as [-> ->].
  { destruct T as [|s0 ty T]; [auto|]. exfalso. apply type_start in T. destruct T as [t T].
    rewrite <- app_assoc, chars_app, T in X. injection X as <- _. auto. }
  exists sn, si, (sc ++ ss ++ sm ++ r), nm, l, ps, ch. cbn [app].
  pose proof (follow_children sc ss sm r ch Ch Ns Tm) as F1.
  pose proof (follow_items si _ l It F1) as F2.
  rewrite <- !app_assoc. repeat (split; [first [assumption|reflexivity]|]).
  split; [|split; [assumption|reflexivity]].
  intros _. exists sc, ss, sm. auto.
Qed.

(** One space, then something else. *)
Lemma one_nspace (sp R : toks) c y : nspaces st sp R -> chars (sp ++ R) = 0x20%N :: c :: y ->
  ~ In c ws_chars -> c <> 0x2F%N -> c <> 0x5C%N ->
  sp = [] \/ chars sp = [0x20%N] /\ chars R = c :: y.
Proof.
  intros N X W S B. unfold nspaces in N. rewrite chars_app in X.
  inversion N as [r Q1 Q2|a t r Ha Ht Q1 Q2]; subst.
  - left. apply chars_nil. auto.
  - right. rewrite <- Q1 in X. rewrite <- app_assoc in X.
    assert (a = [0x20%N]) as ->.
    { destruct Ha as [a r [d r' D|a' r' D]|a b r A1 A2|a b r A1 A2].
      - injection X as -> _. reflexivity.
      - apply block_hd in D. destruct D as [u ->]. discriminate.
      - discriminate.
      - discriminate. }
    injection X as X.
    assert (t = []) as ->.
    { apply many_hd with (P := fun c => In c ws_chars \/ c = 0x2F%N \/ c = 0x5C%N) in Ht.
      - destruct Ht as [->|[d [u [-> P]]]]; [reflexivity|]. injection X as -> _.
        destruct P as [P|[P|P]]; contradiction.
      - intros u v Y. exact (nspace_start _ _ _ Y). }
    rewrite app_nil_r. auto.
Qed.

(** A node that begins with the bare name [n] and something that ends it. *)
Lemma bare_n (sn R : toks) nm x : ident_at (chars sn) (chars R) nm ->
  chars (sn ++ R) = 0x6E%N :: x -> stops x -> chars sn = [0x6E%N] /\ chars R = x /\ nm = [0x6E%N].
Proof.
  intros I X S. rewrite chars_app in X. inversion I as [s r B En|s r t Es]; subst.
  - inversion B as [c C Q|c d s C D F Q|d s D Sg F K Q].
    + rewrite <- Q in X. injection X as -> _. destruct C; discriminate.
    + rewrite <- Q in X. injection X as -> _. destruct C; discriminate.
    + rewrite <- Q in X. injection X as -> X. destruct s as [|e s]; [auto|].
      exfalso. inversion F as [|e0 s0 Fe Fs]; subst. destruct (S e (s ++ chars R)) as [Y _]; auto.
  - destruct Es as [s t Es]. discriminate.
Qed.

Definition item_char (c : char) : Prop :=
  ~ In c ws_chars /\ ~ In c newline_chars /\ ~ In c [0x2F; 0x5C; 0x7B; 0x3B]%N.

(** A document that begins with "n " and the beginning of an argument or
    property. *)
Lemma n_item (s : toks) D c y : document_at st s D -> chars s = str "n " ++ c :: y ->
  item_char c ->
  exists s0 R i l ps ch D' sn sd, c :: y = chars (s0 ++ R)
    /\ plain_item_at s0 i /\ follow (chars R)
    /\ property_map (properties_of (i :: l)) ps
    /\ D = Spanned sd (Node None (Spanned sn (str "n")) (arguments_of (i :: l)) ps ch) :: D'.
Proof.
  intros H X [C1 [C2 C3]].
  assert (forall x, x = 0x2F \/ x = 0x5C \/ x = 0x7B \/ x = 0x3B -> c <> x)%N as C4.
  { intros x Q ->. apply C3. cbn. destruct Q as [->|[->|[->| ->]]]; tauto. }
  destruct (first_node s D 0x6E%N (0x20%N :: c :: y) H X) as [s1 [r [n [D' [-> [N ->]]]]]];
    try wsx.
  destruct (node_parts s1 r n 0x6E%N (0x20%N :: c :: y) N X) as
    [sn [si [R [nm [l [ps [ch [Q [I [It [F1 [F2 [K [P ->]]]]]]]]]]]]]]; [discriminate|].
  rewrite Q in X. destruct (bare_n sn (si ++ R) nm (0x20%N :: c :: y) I X) as [X1 [X2 ->]].
  { apply stops_cons, nonident_ws; [cbn; tauto|discriminate]. }
  destruct It as [R|sp s t R i l Ne Ns Nw Ii It].
  - exfalso. destruct (K eq_refl) as [sc [ss [sm [-> [Ch [Ns Tm]]]]]]. clear K. cbn [app] in X2.
    assert (forall u : toks, u <> [] -> chars u = 0x20%N :: c :: y -> True) as _ by auto.
    inversion Ch as [r0|sp b r0 l Nb B|sp d b r0 l Nb D B]; subst.
    + cbn [app] in X2. destruct (one_nspace _ _ _ _ Ns X2 C1) as [->|[X3 X4]].
      1-2: apply C4; tauto.
      * cbn [app] in X2. apply terminator_hd in Tm. rewrite chars_app in X2.
        destruct Tm as [[T1 T2]|[[t T]|[d [t [T Y]]]]].
        -- rewrite T1, T2 in X2. discriminate.
        -- rewrite T in X2. discriminate.
        -- rewrite T in X2. injection X2 as -> _. destruct Y as [Y|Y]; [wsx|discriminate].
      * apply terminator_hd in Tm. rewrite chars_app in X4.
        destruct Tm as [[T1 T2]|[[t T]|[d [t [T Y]]]]].
        -- rewrite T1, T2 in X4. discriminate.
        -- rewrite T in X4. injection X4 as X4 _. apply (C4 0x2F%N); auto.
        -- rewrite T in X4. injection X4 as -> _. destruct Y as [Y|Y]; [tauto|].
           apply (C4 0x3B%N); auto.
    + rewrite <- app_assoc in X2. apply braces_hd in B.
      destruct (one_nspace _ _ _ _ Nb X2 C1) as [->|[X3 X4]].
      1-2: apply C4; tauto.
      * cbn [app] in X2. rewrite X2 in B. discriminate.
      * rewrite X4 in B. injection B as B. apply (C4 0x7B%N); auto.
    + rewrite <- !app_assoc in X2. apply slashdash_hd in D. destruct D as [u D].
      destruct (one_nspace _ _ _ _ Nb X2 C1) as [->|[X3 X4]].
      1-2: apply C4; tauto.
      * cbn [app] in X2. rewrite X2 in D. discriminate.
      * rewrite X4 in D. injection D as D _. apply (C4 0x2F%N); auto.
  - rewrite <- !app_assoc in X2.
    destruct (one_nspace _ _ _ _ Ns X2 C1) as [->|[X3 X4]].
    1-2: apply C4; tauto.
    { contradiction. }
    assert (follow (chars (t ++ R))) as F3 by (eapply follow_items; eassumption).
    inversion Ii as [s' r0 i' Pi|d s' r0 i' Sd Pi]; subst.
    + exists s, (t ++ R), i, l, ps, ch, D', (span_of sn), (span_of s1). rewrite X4. auto.
    + exfalso. rewrite <- app_assoc in X4.
      apply slashdash_hd in Sd. destruct Sd as [u Sd]. rewrite Sd in X4.
      injection X4 as X4 _. apply (C4 0x2F%N); auto.
Qed.

End Template.
