(** What cannot stand at its place makes the whole document rejected. *)

From Coq Require Import NArith PeanoNat List Bool String Lia.
From Coq Require Import ZifyBool.
From Verif Require Import Chars Ast Errors Chumsky Spans Grammar DocSafe Kdl KdlText KdlChars
  Layout Good GrammarNear LexSpace LexLit LexIdent PropMap Items Nodes NodesComplete Erase
  Meaning LayoutMeans PrintMeans Observe LayoutProps Template LexProps ItemProps
  PlaceParse PlaceSpec.
Import ListNotations.
Local Open Scope list_scope.

Section Lifted.
Context {Sp : Type} {E : env Sp}.

Notation toks := (toks Sp).
Notation len := (@List.length (tok Sp)).

Lemma cut (P : toks) a b : chars P = a ++ b ->
  exists A B, P = A ++ B /\ chars A = a /\ chars B = b.
Proof. apply chars_split. Qed.

Lemma cut_first (P : toks) c b : chars P = c :: b ->
  exists (o : tok Sp) (B : toks), P = o :: B /\ fst o = c /\ chars B = b.
Proof. destruct P as [|o B]; [discriminate|]. intros [= X Y]. exists o, B. auto. Qed.

Lemma dashed_lift d x (D X : toks) : dashed d x -> chars D = d -> chars X = x -> dashed_at D X.
Proof.
  intros [W H] <- <-. split; [exact W|]. destruct H as [H|[s [Q M]]].
  - left. apply chars_nil, H.
  - right. apply chars_cons in Q. destruct Q as [sa [D1 [-> Q]]].
    apply chars_cons in Q. destruct Q as [sb [D2 [-> Q]]].
    apply Slashdash; [reflexivity|reflexivity| |exact W]. unfold nspaces.
    change (chars D2 = s) in Q. rewrite Q. exact M.
Qed.

Lemma typed_lift s (S : toks) : typed s -> chars S = s -> exists ty, opt_type_at S ty.
Proof.
  intros [->|[ty T]] H.
  - apply chars_nil in H. subst. exists None. constructor.
  - subst. eexists. constructor. exact T.
Qed.

Lemma head_lift h x (H X : toks) : head h x -> chars H = h -> chars X = x ->
  exists st sn si ty nm l, H = st ++ sn ++ si /\ opt_type_at st ty
    /\ ident_at (chars sn) (chars (si ++ X)) nm /\ items_at true si X l.
Proof.
  intros [st [sn [si [nm [l [-> [T [I It]]]]]]]] Q <-.
  apply cut in Q. destruct Q as [A [B [-> [A1 Q]]]].
  apply cut in Q. destruct Q as [C [D [-> [C1 D1]]]].
  destruct (typed_lift _ _ T A1) as [ty OT].
  destruct (items_lift true _ _ _ It D X) as [l' [It' _]].
  { rewrite plain_chars. exact D1. }
  { rewrite plain_chars. reflexivity. }
  exists A, C, D, ty, nm, l'. split; [reflexivity|]. split; [exact OT|]. split; [|exact It'].
  rewrite chars_app, C1, D1. exact I.
Qed.

(** If the rest is hopeless, so is the document. *)
Lemma begun_stuck p x : begun p x -> forall P X : toks, chars P = p -> chars X = x ->
  stuck X -> forall D rest, ~ good (document_ (P ++ X)) D rest.
Proof.
  induction 1 as [sp x L|p d s sp x n B IH D Nd L|p d h sb d' sp x B IH D H Ns D' L];
    intros P X Q R St Dd rest.
  - apply stuck_document; [exact St|]. unfold lspaces. rewrite Q, R. exact L.
  - apply cut in Q. destruct Q as [P0 [Q0 [-> [Q1 Q]]]].
    apply cut in Q. destruct Q as [D0 [Q0' [-> [Q2 Q]]]].
    apply cut in Q. destruct Q as [S0 [L0 [-> [Q3 Q4]]]].
    rewrite <- !app_assoc. apply IH; [exact Q1|rewrite !chars_app; congruence|].
    destruct (proj1 (lift_all true) _ _ _ Nd S0 (L0 ++ X)) as [nd [Nd' _]].
    { rewrite plain_chars. exact Q3. }
    { rewrite plain_chars, chars_app. congruence. }
    eapply node_stuck; [|exact Nd'| |exact St].
    + eapply dashed_lift; [exact D|exact Q2|rewrite !chars_app; congruence].
    + unfold lspaces. rewrite Q4, R. exact L.
  - apply cut in Q. destruct Q as [P0 [Y [-> [Q1 Q]]]].
    apply cut in Q. destruct Q as [D0 [Y' [-> [Q2 Q]]]].
    apply cut in Q. destruct Q as [H0 [Z [-> [Q3 Q]]]].
    apply cut in Q. destruct Q as [B0 [Z' [-> [Q4 Q]]]].
    apply cut in Q. destruct Q as [D1 [Z [-> [Q5 Q]]]].
    apply cut_first in Q. destruct Q as [o [L0 [-> [O Q]]]]. change (chars L0 = sp) in Q.
    assert (chars (o :: L0 ++ X) = str "{" ++ sp ++ x) as K.
    { rewrite chars_c, chars_app, O, Q, R. reflexivity. }
    destruct (head_lift _ _ H0 (B0 ++ D1 ++ o :: L0 ++ X) H Q3)
      as [st [sn [si [ty [nm [l [-> [OT [I It]]]]]]]]].
    { rewrite !chars_app, K. congruence. }
    repeat (rewrite <- !app_assoc; cbn [app]).
    apply IH; [exact Q1| |].
    { rewrite !chars_app, K. rewrite !chars_app in Q3. rewrite <- Q3, <- !app_assoc. congruence. }
    eapply (children_stuck D0 st sn si B0 D1 L0 X o); try eassumption.
    + eapply dashed_lift; [exact D|exact Q2|].
      rewrite !chars_app, K. rewrite !chars_app in Q3. rewrite <- Q3, <- !app_assoc. congruence.
    + unfold nspaces. rewrite chars_app, K, Q4, Q5. exact Ns.
    + eapply dashed_lift; [exact D'|exact Q5|exact K].
    + unfold lspaces. rewrite Q, R. exact L.
Qed.

(** A place for an element, where no element can be read. *)
Lemma item_stuck p x c t : item_place p x -> x = c :: t -> item_char c ->
  (forall s i R, @plain_item_at unit unit_env (plain s) i -> follow R -> x <> s ++ R) ->
  forall ts : toks, chars ts = p ++ x -> forall D rest, ~ good (document_ ts) D rest.
Proof.
  intros [p0 [d [h [sp [d' [-> [B [D [H [Ne [Ns D']]]]]]]]]]] Ex K N ts Q.
  rewrite <- !app_assoc in Q.
  apply cut in Q. destruct Q as [P0 [Y [-> [Q1 Q]]]].
  apply (begun_stuck _ _ B); [exact Q1|exact Q|].
  apply cut in Q. destruct Q as [D0 [Y' [-> [Q2 Q]]]].
  apply cut in Q. destruct Q as [H0 [Z [-> [Q3 Q]]]].
  apply cut in Q. destruct Q as [S0 [Z' [-> [Q4 Q]]]].
  apply cut in Q. destruct Q as [D1 [X [-> [Q5 Q6]]]].
  destruct (head_lift _ _ H0 (S0 ++ D1 ++ X) H Q3)
    as [st [sn [si [ty [nm [l [-> [OT [I It]]]]]]]]].
  { rewrite !chars_app. congruence. }
  assert (dashed_at D0 (st ++ sn ++ si ++ S0 ++ D1 ++ X)) as Da.
  { eapply dashed_lift; [exact D|exact Q2|].
    rewrite <- Q3, <- Q4, <- Q5, <- Q6, !chars_app. rewrite <- !app_assoc. reflexivity. }
  destruct (header_char st sn _ (si ++ S0 ++ D1 ++ X) ty nm OT I (proj1 Da))
    as [e [u [Xe [Ke Ke']]]].
  repeat rewrite <- app_assoc.
  eapply bad_node_stuck; [exact Da|exact Xe|exact Ke|exact Ke'|].
  intros n nd rest _ G.
  destruct (node_item n st sn si S0 D1 X ty nm l c t nd rest OT I It) as [i [r [Gi Fr]]].
  - intros ->. apply Ne. symmetry. exact Q4.
  - unfold nspaces. rewrite chars_app, Q4, Q5, Q6. exact Ns.
  - eapply dashed_lift; eassumption.
  - congruence.
  - exact K.
  - exact G.
  - apply inner_sound in Gi. destruct Gi as [s [-> Pi]].
    apply (@plain_item_map Sp unit E unit_env (fun _ => tt)) in Pi; [|reflexivity..].
    rewrite (unit_toks (mtoks _ _)), mtoks_chars in Pi.
    apply (N _ _ _ Pi Fr). rewrite <- chars_app. congruence.
Qed.

(** A place for a name, where no name can be read. *)
Lemma name_stuck p x c t : name_place p x -> x = c :: t -> item_char c -> c <> 0x7D%N ->
  c <> 0x28%N -> (forall s nm R, ident_at s R nm -> follow R -> x <> s ++ R) ->
  forall ts : toks, chars ts = p ++ x -> forall D rest, ~ good (document_ ts) D rest.
Proof.
  intros [p0 [d [st [-> [B [D T]]]]]] Ex K K1 K2 N ts Q.
  rewrite <- !app_assoc in Q.
  apply cut in Q. destruct Q as [P0 [Y [-> [Q1 Q]]]].
  apply (begun_stuck _ _ B); [exact Q1|exact Q|].
  apply cut in Q. destruct Q as [D0 [Y' [-> [Q2 Q]]]].
  pose proof (dashed_lift _ _ D0 Y' D Q2 Q) as Da.
  apply cut in Q. destruct Q as [S0 [X [-> [Q3 Q4]]]].
  destruct (typed_lift _ _ T Q3) as [ty OT].
  assert (exists e u, chars (S0 ++ X) = e :: u /\ item_char e /\ e <> 0x7D%N) as [e [u [Xe [Ke Ke']]]].
  { destruct OT as [|s ty OT].
    - exists c, t. cbn [app]. split; [congruence|auto].
    - apply type_start in OT. destruct OT as [u OT]. rewrite chars_app, OT.
      exists 0x28%N. eexists. split; [reflexivity|]. apply start_item_char; [tauto|wsx]. }
  eapply bad_node_stuck; [exact Da|exact Xe|exact Ke|exact Ke'|].
  intros n nd rest _ G.
  destruct (node_name n S0 X ty nd rest OT) as [nm [r [Gi Fr]]].
  - rewrite Q4, Ex. cbn. congruence.
  - exact G.
  - apply ident_sound in Gi. destruct Gi as [s [-> Id]].
    apply (N _ _ _ Id Fr). rewrite <- chars_app. congruence.
Qed.

End Lifted.

Lemma stuck_rejected t :
  (forall (E : env span) (ts : toks span), chars ts = t ->
     forall D rest, ~ good (@document_ span E ts) D rest) -> rejected t.
Proof.
  intros H. apply not_accepted. intros [d P].
  destruct (parse_span_eq t) as [ts [eoi [S Q]]]. rewrite Q in P. apply run_parsed in P.
  destruct P as [rest G]. refine (H _ ts _ d rest G).
  unfold span_stream in S. injection S as <- _. apply offset_chars.
Qed.

Lemma item_rejected p x c t : item_place p x -> x = c :: t -> item_char c ->
  (forall s i R, @plain_item_at unit unit_env (plain s) i -> follow R -> x <> s ++ R) ->
  rejected (p ++ x).
Proof.
  intros P X K N. apply stuck_rejected. intros E ts Q. eapply item_stuck; eassumption.
Qed.

Lemma name_rejected p x c t : name_place p x -> x = c :: t -> item_char c -> c <> 0x7D%N ->
  c <> 0x28%N -> (forall s nm R, ident_at s R nm -> follow R -> x <> s ++ R) ->
  rejected (p ++ x).
Proof.
  intros P X K K1 K2 N. apply stuck_rejected. intros E ts Q. eapply name_stuck; eassumption.
Qed.

(** ** Words *)

Lemma word_first b : b <> [] -> Forall word_char b -> ~ In 0xFEFF%N b ->
  exists c t, b = c :: t /\ item_char c /\ c <> 0x7D%N /\ c <> 0x28%N /\ word_char c.
Proof.
  intros Ne W F. destruct b as [|c t]; [congruence|]. inversion W as [|c' t' Wc Wt]; subst.
  exists c, t. split; [reflexivity|]. split; [|split; [|split; [|exact Wc]]].
  - apply word_item_char; [exact Wc|]. intros ->. apply F. left. reflexivity.
  - intros ->. destruct Wc as [[_ [Z _]]|Z]; [apply Z; cbn; lia|discriminate].
  - intros ->. destruct Wc as [[_ [Z _]]|Z]; [apply Z; cbn; lia|discriminate].
Qed.

Lemma follow_not_eq t : follow (0x3D%N :: t) -> False.
Proof. intros [F|[F|F]]; [wsx|wsx|cbn in F; lia]. Qed.

Lemma follow_not_quote t : follow (0x22%N :: t) -> False.
Proof. intros [F|[F|F]]; [wsx|wsx|cbn in F; lia]. Qed.

Lemma bare_not_keyword s : bare_text s -> ~ In s keywords.
Proof. intros B K. eapply keyword_not_bare; eassumption. Qed.

Theorem misplaced_argument p s rest : item_place p (s ++ rest) -> bare_text s ->
  ~ In 0xFEFF%N s -> stops rest -> hd_error rest <> Some 0x3D%N ->
  (hd_error rest = Some 0x22%N -> forall k, s <> 0x72%N :: repeat 0x23%N k) ->
  rejected (p ++ s ++ rest).
Proof.
  intros P B F S Ne Qt. assert (s <> []) as Nn by (destruct B; discriminate).
  destruct (word_first s Nn (bare_word _ B) F) as [c [t [X [K _]]]].
  apply (item_rejected p (s ++ rest) c (t ++ rest)); [exact P|rewrite X; reflexivity|exact K|].
  intros s' i R Pi FR Q.
  destruct (word_item s' i s rest R Pi FR Nn (bare_word _ B) F S Q)
    as [[l [_ [_ [[A|A] _]]]]|[[k [u [-> ->]]]|[u [k [v [-> _]]]]]].
  - eapply bare_not_keyword; eassumption.
  - eapply number_not_bare; eassumption.
  - eapply Qt; reflexivity.
  - apply Ne. reflexivity.
Qed.

Lemma word_facts s : (exists l, number_text s l) \/ In s keywords ->
  s <> [] /\ Forall word_char s /\ ~ In 0xFEFF%N s /\ ~ bare_text s.
Proof.
  intros [[l N]|N].
  - destruct (number_word _ _ N).
    split; [eapply number_ne, N|split; [assumption|split; [assumption|eapply number_not_bare, N]]].
  - destruct (keyword_word _ N).
    split; [apply keyword_ne, N|split; [assumption|split; [assumption|apply keyword_not_bare, N]]].
Qed.

Theorem misplaced_key p s rest : item_place p (s ++ 0x3D%N :: rest) ->
  (exists l, number_text s l) \/ In s keywords -> rejected (p ++ s ++ 0x3D%N :: rest).
Proof.
  intros P N. destruct (word_facts s N) as [Nn [W [F B]]].
  destruct (word_first s Nn W F) as [c [t [X [K _]]]].
  apply (item_rejected p _ c (t ++ 0x3D%N :: rest)); [exact P|rewrite X; reflexivity|exact K|].
  intros s' i R Pi FR Q.
  destruct (word_item s' i s _ R Pi FR Nn W F (eq_stops rest) Q)
    as [[l [_ [-> _]]]|[[k [u [_ Z]]]|[u [k [v [_ [_ Kt]]]]]]].
  - eapply follow_not_eq, FR.
  - discriminate.
  - destruct Kt as [s k T|s B' Nk]; [|auto]. eapply word_not_string; eassumption.
Qed.

Theorem misplaced_name p s rest : name_place p (s ++ rest) ->
  (exists l, number_text s l) \/ In s keywords /\ stops rest -> rejected (p ++ s ++ rest).
Proof.
  intros P N. assert ((exists l, number_text s l) \/ In s keywords) as N' by tauto.
  destruct (word_facts s N') as [Nn [W [F B]]].
  destruct (word_first s Nn W F) as [c [t [X [K [K1 [K2 Wc]]]]]].
  apply (name_rejected p _ c (t ++ rest)); auto; [rewrite X; reflexivity|].
  intros w nm rr I F2 Q. destruct I as [w rr B' En|w rr tx Es].
  - destruct N as [[x N]|[N St]].
    + eapply bare_not_number with (rest := rr) (n := s) (r := rest);
        [exact B'| |symmetry; exact Q|exact N].
      exact (follow_digit _ F2).
    + symmetry in Q. apply word_follow in Q; auto using bare_word. destruct Q as [-> _]. auto.
  - apply escaped_start in Es. destruct w as [|e w]; [discriminate|]. injection Es as ->.
    rewrite X in Q. cbn in Q. injection Q as -> _. eapply nonident_word; [|exact Wc].
    exact quote_nonident.
Qed.

(** ** Values *)

Local Existing Instance unit_env.

Lemma string_same a b s t x y : string_text a s -> string_text b t -> a ++ x = b ++ y ->
  a = b /\ x = y.
Proof.
  intros A B Q.
  assert (succ (@string_ unit unit_env (plain a ++ plain x)) s (plain x)) as SA
    by (apply string_complete; rewrite plain_chars; exact A).
  assert (succ (@string_ unit unit_env (plain b ++ plain y)) t (plain y)) as SB
    by (apply string_complete; rewrite plain_chars; exact B).
  rewrite <- plain_app in SA, SB. rewrite Q in SA.
  destruct (succ_fun _ _ _ _ _ SA SB) as [_ Z].
  assert (x = y) as -> by (rewrite <- (plain_chars x), Z; apply plain_chars).
  split; [|reflexivity]. eapply app_inv_tail, Q.
Qed.

Lemma type_same a b s t x y : type_text a s -> type_text b t -> a ++ x = b ++ y ->
  a = b /\ x = y.
Proof.
  intros A B Q.
  assert (succ (@type_name unit unit_env (plain a ++ plain x)) s (plain x)) as SA
    by (apply type_name_complete; rewrite plain_chars; exact A).
  assert (succ (@type_name unit unit_env (plain b ++ plain y)) t (plain y)) as SB
    by (apply type_name_complete; rewrite plain_chars; exact B).
  rewrite <- plain_app in SA, SB. rewrite Q in SA.
  destruct (succ_fun _ _ _ _ _ SA SB) as [_ Z].
  assert (x = y) as -> by (rewrite <- (plain_chars x), Z; apply plain_chars).
  split; [|reflexivity]. eapply app_inv_tail, Q.
Qed.

Lemma string_hd s t : string_text s t -> hd_error s = Some 0x22%N \/ hd_error s = Some 0x72%N.
Proof. intros T. apply string_cases in T. destruct T as [T|[k [u ->]]]; auto. Qed.

Lemma literal_paren s l R x : literal_text s l -> 0x28%N :: x = s ++ R -> False.
Proof.
  intros L Q. apply literal_cases in L. destruct L as [[t [T _]]|[W [_ L]]].
  - apply string_hd in T. destruct s as [|c s]; [destruct T; discriminate|].
    injection Q as <- _. destruct T; discriminate.
  - destruct s as [|c s].
    + destruct L as [L|L]; [cbn in L; intuition discriminate|]. apply number_ne in L. auto.
    + injection Q as <- _. inversion W as [|c' t' Wc Wt]; subst.
      destruct Wc as [[_ [Z _]]|Z]; [apply Z; cbn; lia|discriminate].
Qed.

Lemma key_paren s k R x : key_text s k -> 0x28%N :: x = s ++ R -> False.
Proof.
  intros K Q. destruct K as [s k T|s B _].
  - eapply (literal_paren s (LString k)); [constructor; exact T|exact Q].
  - assert (s <> []) as Nn by (destruct B; discriminate). apply bare_word in B.
    destruct s as [|c s]; [congruence|]. injection Q as <- _. inversion B as [|c' t' Wc Wt]; subst.
    destruct Wc as [[_ [Z _]]|Z]; [apply Z; cbn; lia|discriminate].
Qed.

Lemma quote_word u w x : 0x22%N :: u = w ++ x -> w <> [] -> Forall word_char w -> False.
Proof.
  intros Q Ne W. destruct w as [|c w]; [congruence|]. injection Q as <- _.
  inversion W as [|c' t' Wc Wt]; subst. eapply nonident_word; [exact quote_nonident|exact Wc].
Qed.

Lemma r_no_feff k : ~ In 0xFEFF%N (0x72%N :: repeat 0x23%N k).
Proof. intros [H|H]; [discriminate|]. apply repeat_spec in H. discriminate. Qed.

(** Where a key and an equals sign are, there is no literal. *)
Lemma key_not_literal sk k y s l R : key_text sk k -> literal_text s l -> follow R ->
  sk ++ 0x3D%N :: y = s ++ R -> False.
Proof.
  intros K L F Q. apply literal_cases in L. destruct L as [[t [T _]]|[W [Nf L]]].
  - destruct K as [sk k T'|sk B _].
    + destruct (string_same _ _ _ _ _ _ T' T Q) as [_ <-]. eapply follow_not_eq, F.
    + apply string_cases in T. destruct T as [T|[n [u ->]]].
      * destruct s as [|c s]; [discriminate|]. injection T as ->.
        eapply quote_word; [symmetry; exact Q| |apply bare_word, B]. destruct B; discriminate.
      * rewrite <- app_assoc in Q. apply word_split in Q; auto using bare_word, r_word, eq_stops.
        -- destruct Q; discriminate.
        -- apply quote_stops.
  - assert (s <> []) as Nn.
    { destruct L as [L|L]; [eapply keyword_ne, L|eapply number_ne, L]. }
    destruct K as [sk k T|sk B Nk].
    + apply string_cases in T. destruct T as [T|[n [u ->]]].
      * destruct sk as [|c sk]; [discriminate|]. injection T as ->.
        eapply quote_word; [exact Q|exact Nn|exact W].
      * rewrite <- app_assoc in Q. symmetry in Q. apply word_follow in Q; auto using r_word.
        -- destruct Q as [_ ->]. eapply follow_not_quote, F.
        -- apply quote_stops.
        -- apply r_no_feff.
    + destruct L as [L|L].
      * destruct (app_eq_app _ _ _ _ Q) as [z [[Z1 Z2]|[Z1 Z2]]].
        -- apply (Nk s L). exists z. exact Z1.
        -- destruct z as [|e z].
           ++ rewrite app_nil_r in Z1. apply (Nk s L). exists []. rewrite app_nil_r. auto.
           ++ injection Z2 as <- _. rewrite Z1 in W. apply Forall_app in W. destruct W as [_ W].
              inversion W as [|c' t' Wc Wt]; subst. eapply nonident_word; [|exact Wc].
              exact (eq_stops [] _ _ eq_refl).
      * eapply bare_not_number with (rest := 0x3D%N :: y); [exact B| |exact Q|exact L].
        intros Dg. apply dec_digit_spec in Dg. lia.
Qed.

Lemma key_same a b k k' x y : key_text a k -> key_text b k' ->
  a ++ 0x3D%N :: x = b ++ 0x3D%N :: y -> a = b /\ x = y.
Proof.
  intros A B Q.
  assert (forall s t w u v, string_text s t -> bare_text w ->
    s ++ 0x3D%N :: u = w ++ 0x3D%N :: v -> False) as N.
  { intros s t w u v T W X. apply string_cases in T. destruct T as [T|[n [z ->]]].
    - destruct s as [|c s]; [discriminate|]. injection T as ->.
      eapply quote_word; [exact X| |apply bare_word, W]. destruct W; discriminate.
    - rewrite <- app_assoc in X. apply word_split in X; auto using bare_word, r_word, eq_stops.
      + destruct X; discriminate.
      + apply quote_stops. }
  destruct A as [a k A|a A _], B as [b k' B|b B _].
  - destruct (string_same _ _ _ _ _ _ A B Q) as [-> Z]. injection Z as ->. auto.
  - destruct (N _ _ _ _ _ A B Q).
  - symmetry in Q. destruct (N _ _ _ _ _ B A Q).
  - apply word_split in Q; auto using bare_word, eq_stops. destruct Q as [-> Z].
    injection Z as ->. auto.
Qed.

Lemma value_cases sv v : @value_at unit unit_env sv v ->
  (exists l, literal_text (chars sv) l)
  \/ (exists st ty s l, chars sv = st ++ s /\ type_text st ty /\ literal_text s l).
Proof.
  destruct 1 as [u l L|ut u ty l T L]; [left; eauto|right].
  exists (chars ut), ty, (chars u), l. rewrite chars_app. auto.
Qed.

Lemma typed_value st x v sv R : typed st -> hd_error x <> Some 0x28%N ->
  @value_at unit unit_env sv v -> st ++ x = chars sv ++ R ->
  exists s l, literal_text s l /\ x = s ++ R.
Proof.
  intros T Hx V Q. apply value_cases in V.
  destruct T as [->|[ty T]].
  - cbn [app] in Q. destruct V as [[l L]|[st [ty [s [l [X [T L]]]]]]]; [eauto|].
    exfalso. apply type_start in T. destruct T as [u ->]. rewrite X in Q. subst x.
    apply Hx. reflexivity.
  - destruct V as [[l L]|[st' [ty' [s [l [X [T' L]]]]]]].
    + exfalso. apply type_start in T. destruct T as [u ->]. eapply literal_paren; [exact L|exact Q].
    + rewrite X, <- app_assoc in Q. destruct (type_same _ _ _ _ _ _ T T' Q) as [_ ->]. eauto.
Qed.

Lemma value_rejected p x c t : value_place p x -> x = c :: t -> c <> 0x28%N ->
  (forall s l R, literal_text s l -> follow R -> x <> s ++ R) -> rejected (p ++ x).
Proof.
  intros P X Hc N.
  assert (hd_error x <> Some 0x28%N) as Hx by (rewrite X; cbn; congruence).
  destruct P as [[p0 [st [ty [-> [P T]]]]]|[p0 [sk [k [st [-> [P [K T]]]]]]]].
  - rewrite <- app_assoc. pose proof (type_start _ _ T) as [u U].
    apply (item_rejected p0 (st ++ x) 0x28%N (u ++ x)); [exact P|rewrite U; reflexivity| |].
    { apply start_item_char; [tauto|wsx]. }
    intros s i R Pi F Q.
    destruct (item_cases _ _ Pi) as [[l [L ->]]|[[st' [ty' [sv [l [-> [T' [L ->]]]]]]]
      |[sk [k [sv [v [-> [K [V ->]]]]]]]]].
    + rewrite U in Q. eapply literal_paren; [exact L|exact Q].
    + rewrite <- app_assoc in Q. destruct (type_same _ _ _ _ _ _ T T' Q) as [_ Z].
      eapply N; [exact L|exact F|exact Z].
    + rewrite U, <- app_assoc in Q. eapply key_paren; [exact K|exact Q].
  - rewrite <- !app_assoc. change (str "=" ++ st ++ x) with (0x3D%N :: st ++ x) in *.
    assert (exists e y, sk = e :: y /\ item_char e) as [e [y [Z Ke]]].
    { pose proof P as [q0 [d [h [sp [d' [_ [_ [_ [_ [_ [_ [W _]]]]]]]]]]]].
      destruct K as [sk k K|sk B _].
      - apply string_hd in K. destruct sk as [|e y]; [destruct K; discriminate|].
        exists e, y. split; [reflexivity|].
        destruct K as [K|K]; injection K as ->; apply start_item_char; try wsx; try tauto.
        right. right. left. split; [right; apply id_char_spec; reflexivity|].
        intros Dg. apply dec_digit_spec in Dg. lia.
      - pose proof (bare_word _ B) as Wb. destruct sk as [|e y]; [inversion B|].
        exists e, y. split; [reflexivity|]. apply word_item_char; [inversion Wb; assumption|].
        intros ->. apply W. cbn. tauto. }
    apply (item_rejected p0 _ e (y ++ 0x3D%N :: st ++ x)); [exact P|rewrite Z; reflexivity|exact Ke|].
    intros s i R Pi F Q.
    destruct (item_cases _ _ Pi) as [[l [L ->]]|[[st' [ty' [sv [l [-> [T' [L ->]]]]]]]
      |[sk' [k' [sv [v [-> [K' [V ->]]]]]]]]].
    + eapply key_not_literal; eassumption.
    + apply type_start in T'. destruct T' as [u ->]. eapply key_paren; [exact K|].
      symmetry. exact Q.
    + rewrite <- app_assoc in Q. cbn [app] in Q.
      destruct (key_same _ _ _ _ _ _ K K' Q) as [_ Q'].
      destruct (typed_value st x v sv R T Hx V Q') as [s' [l [L Zx]]].
      eapply N; [exact L|exact F|exact Zx].
Qed.

Theorem misplaced_value p s rest : value_place p (s ++ rest) -> bare_text s ->
  ~ In 0xFEFF%N s -> stops rest ->
  (hd_error rest = Some 0x22%N -> forall k, s <> 0x72%N :: repeat 0x23%N k) ->
  rejected (p ++ s ++ rest).
Proof.
  intros P B F S Qt. assert (s <> []) as Nn by (destruct B; discriminate).
  destruct (word_first s Nn (bare_word _ B) F) as [c [t [X [K [_ [K2 Wc]]]]]].
  apply (value_rejected p (s ++ rest) c (t ++ rest)); [exact P|rewrite X; reflexivity|exact K2|].
  intros s' l R L FR Q. apply literal_cases in L. destruct L as [[u [T _]]|[W [Nf L]]].
  - apply string_cases in T. destruct T as [T|[n [z ->]]].
    + destruct s' as [|e s']; [discriminate|]. injection T as ->.
      eapply quote_word; [symmetry; exact Q|exact Nn|apply bare_word, B].
    + rewrite <- app_assoc in Q. apply word_split in Q; auto using bare_word, r_word.
      * destruct Q as [-> ->]. eapply Qt; reflexivity.
      * apply quote_stops.
  - symmetry in Q. apply word_follow in Q; auto using bare_word. destruct Q as [-> _].
    destruct L as [L|L]; [eapply bare_not_keyword; eassumption|].
    eapply number_not_bare; eassumption.
Qed.
