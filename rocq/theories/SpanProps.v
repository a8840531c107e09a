(** The spans of a parsed document are exact. *)

From Coq Require Import NArith PeanoNat List Bool String Lia.
From Verif Require Import Chars Ast Errors Chumsky Spans Grammar DocSafe Kdl KdlText SpanSpec Good
  LexSpace LexLit LexIdent PropMap Items Nodes NodesComplete Erase Meaning LayoutMeans.
Import ListNotations.
Local Open Scope list_scope.

Lemma byte_len_app a b : byte_len (a ++ b) = byte_len a + byte_len b.
Proof. induction a as [|c a IH]; [reflexivity|]. cbn. rewrite IH. lia. Qed.

Lemma utf8_len_pos c : 1 <= utf8_len c.
Proof. unfold utf8_len. repeat destruct (_ <? _)%N; lia. Qed.

Lemma byte_len_pos s : s <> [] -> 1 <= byte_len s.
Proof. destruct s as [|c s]; [congruence|]. intros _. cbn. pose proof (utf8_len_pos c). lia. Qed.

Section Placed.
Variable eoi : span.
Local Instance E : env span := span_env eoi.
Notation toks := (toks span).

(** The tokens [s] are those of the text [t] after [p]. *)
Definition placed (t p : text) (s : toks) : Prop :=
  (exists q, t = p ++ chars s ++ q) /\ s = offset_tokens (byte_len p) (chars s).

Lemma offset_app a : forall off b,
  offset_tokens off (a ++ b) = offset_tokens off a ++ offset_tokens (off + byte_len a) b.
Proof.
  induction a as [|c a IH]; intros off b.
  - cbn. f_equal. lia.
  - cbn [app offset_tokens byte_len]. rewrite IH, Nat.add_assoc. reflexivity.
Qed.

Lemma offset_length t : forall off, List.length (offset_tokens off t) = List.length t.
Proof. induction t; intros off; [reflexivity|]. cbn. f_equal. auto. Qed.

Lemma placed_app t p a b : placed t p (a ++ b) ->
  placed t p a /\ placed t (p ++ chars a) b.
Proof.
  intros [[q Q] S]. rewrite chars_app in Q, S. rewrite offset_app in S.
  assert (List.length a = List.length (offset_tokens (byte_len p) (chars a))) as L.
  { rewrite offset_length. unfold chars. rewrite map_length. reflexivity. }
  assert (a = offset_tokens (byte_len p) (chars a)
    /\ b = offset_tokens (byte_len p + byte_len (chars a)) (chars b)) as [A B].
  { clear Q. revert S L. generalize (offset_tokens (byte_len p) (chars a)).
    generalize (offset_tokens (byte_len p + byte_len (chars a)) (chars b)).
    induction a as [|x a IH]; intros u v S L.
    - destruct v; [|discriminate]. auto.
    - destruct v as [|y v]; [discriminate|]. cbn in S. injection S as -> S. cbn in L.
      injection L as L. destruct (IH u v S L) as [<- <-]. auto. }
  split; split; auto.
  - exists (chars b ++ q). rewrite <- app_assoc in Q. exact Q.
  - exists q. rewrite <- app_assoc in *. exact Q.
  - rewrite byte_len_app. exact B.
Qed.

Lemma offset_last t : forall off c a d, t <> [] ->
  snd (last ((c, a) :: offset_tokens off t) d) = snd (last (offset_tokens off t) d).
Proof. destruct t; intros; [congruence|reflexivity]. Qed.

Lemma offset_last_end t : forall off d, t <> [] ->
  sp_end (snd (last (offset_tokens off t) d)) = off + byte_len t.
Proof.
  induction t as [|c t IH]; intros off d Ne; [congruence|].
  destruct t as [|c' t]; [cbn; lia|]. cbn [offset_tokens].
  change (offset_tokens (off + utf8_len c) (c' :: t)) with
    (offset_tokens (off + utf8_len c) (c' :: t)).
  rewrite (offset_last (c' :: t) (off + utf8_len c) c _ d) by discriminate.
  rewrite IH by discriminate. cbn [byte_len]. lia.
Qed.

Lemma placed_span t p s : placed t p s -> s <> [] ->
  span_of s = Span (byte_len p) (byte_len p + byte_len (chars s)).
Proof.
  intros [_ S] Ne. rewrite S at 1. assert (chars s <> []) as Nc by (destruct s; [congruence|discriminate]).
  destruct (chars s) as [|c u] eqn:C; [congruence|]. cbn [offset_tokens span_of sp_join E span_env].
  f_equal.
  pose proof (offset_last_end (c :: u) (byte_len p) (0%N, Span (byte_len p) (byte_len p + utf8_len c))
    Nc) as L. cbn [offset_tokens] in L. exact L.
Qed.

Lemma placed_source t p s : placed t p s -> s <> [] -> source t (span_of s) (chars s).
Proof.
  intros P Ne. rewrite (placed_span t p s P Ne). destruct P as [[q Q] _]. exists p, q.
  split; [exact Q|]. split; [destruct s; [congruence|discriminate]|]. rewrite byte_len_app. reflexivity.
Qed.

(** The end of [s] when it begins after [p]. *)
Definition till (p : text) (s : toks) : nat := byte_len p + byte_len (chars s).

Lemma till_app p a b : till p (a ++ b) = till (p ++ chars a) b.
Proof. unfold till. rewrite chars_app, !byte_len_app. lia. Qed.

Lemma till_nil p : till p [] = byte_len p.
Proof. unfold till. cbn. lia. Qed.

Lemma till_le p s : byte_len p <= till p s.
Proof. unfold till. lia. Qed.

Lemma placed_type t p s ty : placed t p s -> type_text (chars s) ty ->
  exact_type t (Spanned (span_of s) ty) /\ sp_start (span_of s) = byte_len p
  /\ sp_end (span_of s) = till p s.
Proof.
  intros P T. assert (s <> []) as Ne by (apply ne_chars, type_ne with ty, T).
  split.
  - exists (chars s). split; [apply (placed_source t p); assumption|exact T].
  - rewrite (placed_span t p s P Ne). auto.
Qed.

Lemma placed_value t p s v : placed t p s -> value_at s v ->
  exact_value t v /\ extent v = Span (byte_len p) (till p s) /\ byte_len p < till p s.
Proof.
  intros P V. destruct V as [s l L|st s ty l T L].
  - assert (s <> []) as Ne by (apply ne_chars, literal_ne with l, L).
    split; [split|split].
    + exists (chars s). split; [apply (placed_source t p); assumption|exact L].
    + discriminate.
    + unfold extent. cbn. rewrite (placed_span t p s P Ne). reflexivity.
    + unfold till. assert (chars s <> []) as Nc by (destruct s; [congruence|discriminate]).
      apply byte_len_pos in Nc. lia.
  - apply placed_app in P. destruct P as [P1 P2].
    assert (s <> []) as Ne by (apply ne_chars, literal_ne with l, L).
    destruct (placed_type _ _ _ _ P1 T) as [X [X1 X2]].
    split; [split|split].
    + exists (chars s). split; [apply (placed_source t (p ++ chars st)); assumption|exact L].
    + intros ty' [= <-]. split; [exact X|]. cbn [s_span v_literal]. rewrite X2.
      rewrite (placed_span _ _ _ P2 Ne). cbn. rewrite byte_len_app. reflexivity.
    + unfold extent. cbn [v_type_name v_literal s_span]. rewrite X1.
      rewrite (placed_span _ _ _ P2 Ne). cbn [sp_end]. rewrite till_app. reflexivity.
    + rewrite till_app. unfold till. rewrite byte_len_app.
      assert (chars s <> []) as Nc by (destruct s; [congruence|discriminate]).
      apply byte_len_pos in Nc. lia.
Qed.

Lemma key_ne s k : key_text s k -> s <> [].
Proof.
  destruct 1 as [s t T|s B _].
  - apply string_start in T. intros ->. destruct T; discriminate.
  - destruct B; discriminate.
Qed.

Lemma in_order_weaken lo lo' hi hi' l : in_order lo hi l -> lo' <= lo -> hi <= hi' ->
  in_order lo' hi' l.
Proof.
  intros H. revert lo'. induction H as [lo hi H|lo hi sp l H1 H2 H IH]; intros lo' L1 L2.
  - constructor. lia.
  - constructor; [lia|assumption|]. apply IH; [lia|assumption].
Qed.

Definition exact_prop t lo hi (kv : spanned text span * value span) : Prop :=
  (exists s, source t (s_span (fst kv)) s /\ key_text s (s_value (fst kv)))
  /\ exact_value t (snd kv)
  /\ in_order lo hi [s_span (fst kv)] /\ in_order lo hi [extent (snd kv)].

Lemma exact_prop_weaken t lo lo' hi hi' kv : exact_prop t lo hi kv -> lo' <= lo -> hi <= hi' ->
  exact_prop t lo' hi' kv.
Proof.
  intros [A [B [C D]]] L1 L2. split; [exact A|]. split; [exact B|].
  split; eapply in_order_weaken; eassumption.
Qed.

(** One item: its contribution, between its ends. *)
Lemma placed_item t p s i : placed t p s -> plain_item_at s i ->
  Forall (exact_value t) (arguments_of [i])
  /\ in_order (byte_len p) (till p s) (map extent (arguments_of [i]))
  /\ Forall (exact_prop t (byte_len p) (till p s)) (properties_of [i]).
Proof.
  intros P H. destruct H as [s v V|sk e s k v K Ee V].
  - destruct (placed_value _ _ _ _ P V) as [X [X1 X2]]. cbn [arguments_of properties_of map].
    split; [constructor; [exact X|constructor]|]. split; [|constructor].
    rewrite X1. constructor; cbn; [lia|exact X2|]. constructor. lia.
  - cbn [arguments_of properties_of map]. split; [constructor|]. split; [constructor; apply till_le|].
    constructor; [|constructor]. apply placed_app in P. destruct P as [P1 P2].
    assert (sk <> []) as Ne by (apply ne_chars, key_ne with k, K).
    change (e :: s) with ([e] ++ s) in P2. apply placed_app in P2. destruct P2 as [_ P3].
    destruct (placed_value _ _ _ _ P3 V) as [X [X1 X2]].
    assert (chars sk <> []) as Nc by (destruct sk; [congruence|discriminate]).
    apply byte_len_pos in Nc.
    assert (till p (sk ++ e :: s) = till ((p ++ chars sk) ++ chars [e]) s) as T.
    { change (e :: s) with ([e] ++ s). rewrite !till_app. reflexivity. }
    pose proof (till_le ((p ++ chars sk) ++ chars [e]) s) as L. rewrite !byte_len_app in L.
    unfold exact_prop. cbn [fst snd s_span s_value].
    split; [exists (chars sk); split; [apply (placed_source t p); assumption|exact K]|].
    split; [exact X|]. rewrite T, X1, (placed_span _ _ _ P1 Ne). split.
    + constructor; cbn [sp_start sp_end]; [lia|lia|]. constructor. lia.
    + rewrite !byte_len_app in X2 |- *.
      constructor; cbn [sp_start sp_end]; [lia|exact X2|]. constructor. lia.
Qed.

Lemma arguments_cons (i : entry (Sp := span)) l : arguments_of (i :: l) = arguments_of [i] ++ arguments_of l.
Proof. destruct i; reflexivity. Qed.

Lemma properties_cons (i : entry (Sp := span)) l : properties_of (i :: l) = properties_of [i] ++ properties_of l.
Proof. destruct i; reflexivity. Qed.

Lemma in_order_app lo mid hi a b : in_order lo mid a -> in_order mid hi b -> in_order lo hi (a ++ b).
Proof.
  induction 1 as [lo mid H|lo mid sp l H1 H2 H IH]; intros B; cbn [app].
  - eapply in_order_weaken; [exact B|lia|lia].
  - constructor; auto.
Qed.

Lemma placed_items st t s R l : items_at st s R l -> forall p, placed t p s ->
  Forall (exact_value t) (arguments_of l)
  /\ in_order (byte_len p) (till p s) (map extent (arguments_of l))
  /\ Forall (exact_prop t (byte_len p) (till p s)) (properties_of l).
Proof.
  induction 1 as [R|sp s u R i l Ne Ns Nw It H IH]; intros p P.
  - cbn [arguments_of properties_of map]. split; [constructor|]. split; [|constructor].
    constructor. apply till_le.
  - apply placed_app in P. destruct P as [P1 P2]. apply placed_app in P2. destruct P2 as [P2 P3].
    destruct (IH _ P3) as [A1 [A2 A3]].
    assert (Forall (exact_value t) (arguments_of [i])
      /\ in_order (byte_len p) (till (p ++ chars sp) s) (map extent (arguments_of [i]))
      /\ Forall (exact_prop t (byte_len p) (till (p ++ chars sp) s)) (properties_of [i]))
      as [B1 [B2 B3]].
    { assert (byte_len p <= byte_len (p ++ chars sp)) as Lp by (rewrite byte_len_app; lia).
      inversion It as [s0 r0 i0 Pi Q1 Q2 Q3|d s0 r0 i0 D Pi Q1 Q2 Q3]; subst.
      - destruct (placed_item _ _ _ _ P2 Pi) as [C1 [C2 C3]]. split; [exact C1|]. split.
        + eapply in_order_weaken; [exact C2|lia|lia].
        + eapply Forall_impl; [|exact C3]. intros kv X. eapply exact_prop_weaken; [exact X|lia|lia].
      - cbn [arguments_of properties_of map]. split; [constructor|]. split; [|constructor].
        constructor. pose proof (till_le (p ++ chars sp) (d ++ s0)). lia. }
    assert (byte_len ((p ++ chars sp) ++ chars s) = till (p ++ chars sp) s) as T1.
    { rewrite byte_len_app. reflexivity. }
    assert (till p (sp ++ s ++ u) = till ((p ++ chars sp) ++ chars s) u) as T2.
    { rewrite !till_app. reflexivity. }
    pose proof (till_le ((p ++ chars sp) ++ chars s) u) as L2.
    pose proof (till_le (p ++ chars sp) s) as L1.
    pose proof (till_le p sp) as L0. unfold till in L0. rewrite <- byte_len_app in L0.
    rewrite arguments_cons, properties_cons, T2, map_app.
    split; [apply Forall_app; auto|]. split.
    + eapply in_order_app; [exact B2|]. rewrite <- T1. exact A2.
    + apply Forall_app. split.
      * eapply Forall_impl; [|exact B3]. intros kv X. eapply exact_prop_weaken; [exact X|lia|].
        rewrite <- T1. lia.
      * eapply Forall_impl; [|exact A3]. intros kv X. eapply exact_prop_weaken; [exact X|lia|lia].
Qed.

Lemma exact_nodes_weaken t lo lo' hi hi' l : exact_nodes t lo hi l -> lo' <= lo -> hi <= hi' ->
  exact_nodes t lo' hi' l.
Proof.
  revert lo lo'. induction l as [|n l IH]; intros lo lo' H L1 L2; inversion H; subst.
  - constructor. lia.
  - constructor; [lia|assumption|]. eapply IH; [eassumption|lia|assumption].
Qed.

Lemma ident_ne s r n : ident_at s r n -> s <> [].
Proof.
  intros H. apply ident_at_start in H. destruct s; [|discriminate].
  destruct H as [c [u [H _]]]; discriminate.
Qed.

Variable st : bool.
Variable t : text.

Theorem exact_spans :
  (forall s r n, node_at st s r n -> forall p, placed t p s ->
     s <> [] /\ exact_node t (span_of s) n)
  /\ (forall s r ch, children_at st s r ch -> forall p, placed t p s -> forall c, ch = Some c ->
     (exists u, source t (s_span c) (str "{" ++ u ++ str "}"))
     /\ byte_len p <= sp_start (s_span c) /\ sp_end (s_span c) = till p s
     /\ exact_nodes t (S (sp_start (s_span c))) (sp_end (s_span c) - 1) (s_value c))
  /\ (forall s r l, braces_at st s r l -> forall p, placed t p s ->
     s <> [] /\ (exists u, chars s = str "{" ++ u ++ str "}")
     /\ exact_nodes t (S (byte_len p)) (till p s - 1) l)
  /\ (forall s r l, nodes_at st s r l -> forall p, placed t p s ->
     exact_nodes t (byte_len p) (till p s) l)
  /\ (forall s r l, node_list_at st s r l -> forall p, placed t p s ->
     exact_nodes t (byte_len p) (till p s) l).
Proof.
  apply kdl_mut.
  - intros sty sn si sc ss sm r ty nm l ps ch T I It Ch IHc Ns Tm P p Pl.
    assert (sn <> []) as Nn by (apply ne_chars, ident_ne with (chars (si ++ sc ++ ss ++ sm ++ r)) nm, I).
    assert (sty ++ sn ++ si ++ sc ++ ss ++ sm <> []) as Ne.
    { destruct sty; [|discriminate]. destruct sn; [congruence|discriminate]. }
    split; [exact Ne|]. pose proof (placed_source _ _ _ Pl Ne) as Src.
    pose proof (placed_span _ _ _ Pl Ne) as Sp.
    assert (Pl' := Pl). apply placed_app in Pl'. destruct Pl' as [P1 Pl'].
    apply placed_app in Pl'. destruct Pl' as [P2 Pl'].
    apply placed_app in Pl'. destruct Pl' as [P3 Pl'].
    apply placed_app in Pl'. destruct Pl' as [P4 Pl'].
    set (p1 := p ++ chars sty) in *. set (p2 := p1 ++ chars sn) in *.
    set (p3 := p2 ++ chars si) in *.
    destruct (placed_items _ _ _ _ _ It _ P3) as [A1 [A2 A3]].
    pose proof (placed_span _ _ _ P2 Nn) as Sn.
    assert (till p2 si = byte_len p3) as T3 by (unfold p3; rewrite byte_len_app; reflexivity).
    assert (byte_len p1 + byte_len (chars sn) = byte_len p2) as T2
      by (unfold p2; rewrite byte_len_app; reflexivity).
    assert (byte_len p2 <= byte_len p3) as L23 by (unfold p3; rewrite byte_len_app; lia).
    assert (byte_len p + byte_len (chars (sty ++ sn ++ si ++ sc ++ ss ++ sm))
      = till p3 sc + byte_len (chars (ss ++ sm))) as Tend.
    { unfold till, p3, p2, p1. rewrite !chars_app, !byte_len_app. lia. }
    pose proof (till_le p3 sc) as L3.
    eapply Exact_node with (last := byte_len p3).
    + exact Src.
    + intros x ->. inversion T as [|s0 ty0 T0 Q1 Q2]; subst.
      destruct (placed_type _ _ _ _ P1 T0) as [X [X1 X2]]. split; [exact X|].
      cbn [s_span]. rewrite X1, X2, Sp, Sn. cbn. split; [reflexivity|].
      unfold p1. rewrite byte_len_app. reflexivity.
    + intros ->. inversion T; subst. cbn [s_span]. rewrite Sn, Sp. cbn [sp_start].
      unfold p1. rewrite app_nil_r. reflexivity.
    + exists (chars sn), (chars (si ++ sc ++ ss ++ sm ++ r)). cbn [s_span s_value].
      split; [apply (placed_source t p1); assumption|exact I].
    + exact A1.
    + apply Forall_forall. intros kv J. destruct P as [_ P]. apply P in J.
      destruct J as [b1 [v1 [a1 [b2 [k2 [a2 [Q1 [_ [Q2 _]]]]]]]]].
      rewrite Q1 in A3. apply Forall_app in A3. destruct A3 as [_ A3].
      inversion A3 as [|x y Ex _]; subst. apply Ex.
    + apply Forall_forall. intros kv J. destruct P as [_ P]. apply P in J.
      destruct J as [b1 [v1 [a1 [b2 [k2 [a2 [Q1 [_ [Q2 _]]]]]]]]].
      rewrite Q2 in A3. apply Forall_app in A3. destruct A3 as [_ A3].
      inversion A3 as [|x y Ex _]; subst. apply Ex.
    + cbn [s_span]. rewrite Sn. cbn [sp_end]. rewrite T2, <- T3. exact A2.
    + cbn [s_span]. rewrite Sn. cbn [sp_end]. rewrite T2, <- T3.
      apply Forall_forall. intros kv J. destruct P as [_ P]. apply P in J.
      destruct J as [b1 [v1 [a1 [b2 [k2 [a2 [Q1 [_ [Q2 _]]]]]]]]]. split.
      * rewrite Q1 in A3. apply Forall_app in A3. destruct A3 as [_ A3].
        inversion A3 as [|x y Ex _]; subst. apply Ex.
      * rewrite Q2 in A3. apply Forall_app in A3. destruct A3 as [_ A3].
        inversion A3 as [|x y Ex _]; subst. apply Ex.
    + intros c Q. apply (IHc p3 P4 c Q).
    + intros c Q. destruct (IHc p3 P4 c Q) as [_ [C1 [C2 _]]]. split; [exact C1|].
      rewrite C2, Sp. cbn [sp_end]. lia.
    + rewrite Sp. cbn [sp_end]. lia.
    + intros c Q. apply (IHc p3 P4 c Q).
  - intros r p Pl c Q. discriminate.
  - intros sp b r l Ns B IH p Pl c [= <-]. apply placed_app in Pl. destruct Pl as [P1 P2].
    destruct (IH _ P2) as [Ne [[u U] X]]. cbn [s_span s_value].
    rewrite (placed_span _ _ _ P2 Ne). cbn [sp_start sp_end].
    pose proof (placed_source _ _ _ P2 Ne) as Src. rewrite (placed_span _ _ _ P2 Ne), U in Src.
    split; [exists u; rewrite U; exact Src|]. split; [rewrite byte_len_app; lia|].
    split; [rewrite till_app; reflexivity|]. exact X.
  - intros sp d b r l Ns D B IH p Pl c Q. discriminate.
  - intros o s c r l O C N IH p Pl.
    split; [discriminate|]. destruct o as [o osp], c as [c csp]. cbn [fst] in O, C. subst o c.
    split.
    { exists (chars s). change (chars ((0x7B%N, osp) :: s ++ [(0x7D%N, csp)]))
        with (0x7B%N :: chars (s ++ [(0x7D%N, csp)])). rewrite chars_app. reflexivity. }
    change ((0x7B%N, osp) :: s ++ [(0x7D%N, csp)])
      with ([(0x7B%N, osp)] ++ s ++ [(0x7D%N, csp)]) in *.
    apply placed_app in Pl. destruct Pl as [P1 P2]. apply placed_app in P2. destruct P2 as [P2 P3].
    specialize (IH _ P2). rewrite !till_app.
    eapply exact_nodes_weaken; [exact IH| |].
    + rewrite byte_len_app. cbn. lia.
    + unfold till. rewrite !byte_len_app. cbn. lia.
  - intros sp s r l Ls N IH p Pl. apply placed_app in Pl. destruct Pl as [P1 P2].
    specialize (IH _ P2). rewrite till_app. eapply exact_nodes_weaken; [exact IH| |lia].
    rewrite byte_len_app. lia.
  - intros r p Pl. constructor. apply till_le.
  - intros s sp u r n l Nw N IHn Ls L IHl p Pl. apply placed_app in Pl. destruct Pl as [P1 P2].
    apply placed_app in P2. destruct P2 as [P2 P3].
    destruct (IHn _ P1) as [Ne X]. specialize (IHl _ P3). constructor; cbn [s_span s_value].
    + rewrite (placed_span _ _ _ P1 Ne). cbn. lia.
    + exact X.
    + rewrite (placed_span _ _ _ P1 Ne). cbn [sp_end]. rewrite !till_app.
      eapply exact_nodes_weaken; [exact IHl| |lia]. rewrite !byte_len_app. lia.
  - intros d s sp u r n l D N IHn Ls L IHl p Pl. apply placed_app in Pl. destruct Pl as [P0 P1].
    apply placed_app in P1. destruct P1 as [P1 P2].
    apply placed_app in P2. destruct P2 as [P2 P3]. specialize (IHl _ P3). rewrite !till_app.
    eapply exact_nodes_weaken; [exact IHl| |lia]. rewrite !byte_len_app. lia.
Qed.

End Placed.

Theorem parse_exact t d : parse_ast_span t = Parsed d -> exact_nodes t 0 (byte_len t) d.
Proof.
  intros H. apply parse_span_tokens in H.
  destruct (exact_spans (Span (byte_len t) (byte_len t)) false t) as [_ [_ [_ [X _]]]].
  assert (placed t [] (offset_tokens 0 t)) as P.
  { split; [exists []; rewrite offset_chars, app_nil_r; reflexivity|].
    rewrite offset_chars. reflexivity. }
  specialize (X _ _ _ H [] P). unfold till in X. rewrite offset_chars in X. exact X.
Qed.
