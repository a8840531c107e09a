(** Values, arguments and properties: the parsers accept what the grammar
    says. *)

From Coq Require Import NArith ZArith PeanoNat List Bool String Lia ZifyBool.
From Verif Require Import Chars Ast Errors Chumsky Spans Grammar Safe GrammarSafe
  Near GrammarNear Kdl KdlChars Good LexSpace LexLit LexIdent PropMap.
Import ListNotations.
Local Open Scope list_scope.

Section Items.
Context {Sp : Type} {E : env Sp}.

Notation parser := (parser Sp).
Notation toks := (toks Sp).
Notation len := (@List.length (tok Sp)).

Lemma good_spanned {A} (p : parser A) s rest x :
  good (p_spanned p (s ++ rest)) x rest -> s <> [] ->
  exists a, good (p (s ++ rest)) a rest /\ x = Spanned (span_of s) a.
Proof.
  intros G N. apply good_map_with_span in G. destruct G as [a [G ->]].
  exists a. split; [exact G|]. rewrite span_since_of by exact N. reflexivity.
Qed.

Lemma spanned_sound {A} (p : parser A) (R : toks -> A -> toks -> Prop) ts x rest :
  (forall a, good (p ts) a rest -> exists s, ts = s ++ rest /\ R s a rest /\ s <> []) ->
  good (p_spanned p ts) x rest ->
  exists s a, ts = s ++ rest /\ R s a rest /\ x = Spanned (span_of s) a /\ s <> [].
Proof.
  intros H G. apply good_map_with_span in G. destruct G as [a [G ->]].
  destruct (H a G) as [s [-> [X N]]]. exists s, a. rewrite span_since_of by exact N. auto.
Qed.

Lemma succ_spanned {A} (p : parser A) s rest a : s <> [] -> succ (p (s ++ rest)) a rest ->
  succ (p_spanned p (s ++ rest)) (Spanned (span_of s) a) rest.
Proof.
  intros N S. rewrite <- (span_since_of s rest N).
  apply (succ_map_with_span (fun value span => Spanned span value)). exact S.
Qed.

Lemma ne_chars (s : toks) : chars s <> [] -> s <> [].
Proof. intros H ->. apply H. reflexivity. Qed.

Lemma literal_ne s l : literal_text s l -> s <> [].
Proof. intros H ->. apply literal_start in H. destruct H as [c [t [X _]]]. discriminate. Qed.

Lemma type_ne s l : type_text s l -> s <> [].
Proof. intros H ->. apply type_start in H. destruct H as [t X]. discriminate. Qed.

Lemma spanned_literal_sound ts x rest : good (p_spanned literal_ ts) x rest ->
  exists s l, ts = s ++ rest /\ literal_text (chars s) l /\ x = Spanned (span_of s) l.
Proof.
  intros G. apply (spanned_sound literal_ (fun s l r => literal_text (chars s) l)) in G.
  - destruct G as [s [a [X [Y [Z _]]]]]. eauto.
  - intros a G2. apply literal_sound in G2. destruct G2 as [s [-> H]]. exists s.
    repeat split; auto. apply ne_chars. eapply literal_ne; eauto.
Qed.

Lemma spanned_type_sound ts x rest : good (p_spanned type_name ts) x rest ->
  exists s l, ts = s ++ rest /\ type_text (chars s) l /\ x = Spanned (span_of s) l.
Proof.
  intros G. apply (spanned_sound type_name (fun s l r => type_text (chars s) l)) in G.
  - destruct G as [s [a [X [Y [Z _]]]]]. eauto.
  - intros a G2. apply type_name_sound in G2. destruct G2 as [s [-> H]]. exists s.
    repeat split; auto. apply ne_chars. eapply type_ne; eauto.
Qed.

Lemma typed_value_sound ts v rest : good (type_name_value ts) v rest ->
  exists s, ts = s ++ rest /\ value_at s v.
Proof.
  unfold type_name_value. intros G. apply good_map in G. destruct G as [x [G ->]].
  apply good_then in G. destruct G as [ty [l [r1 [G1 [G2 ->]]]]].
  apply spanned_type_sound in G1. destruct G1 as [st [ty' [-> [T ->]]]].
  apply spanned_literal_sound in G2. destruct G2 as [s [l' [-> [L ->]]]].
  exists (st ++ s). split; [aa|]. constructor; auto.
Qed.

Lemma value_sound ts v rest : good (value_ ts) v rest ->
  exists s, ts = s ++ rest /\ value_at s v.
Proof.
  unfold value_. intros G. apply good_or in G. destruct G as [G|[G _]].
  - apply typed_value_sound, G.
  - apply good_map in G. destruct G as [x [G ->]].
    apply spanned_literal_sound in G. destruct G as [s [l' [-> [L ->]]]].
    exists s. split; [reflexivity|]. constructor; auto.
Qed.

Definition entry_of (i : @prop_or_arg_t Sp) : @entry Sp :=
  match i with
  | Prop_ k v => Property k v
  | Arg_ v => Argument v
  | Ignore_ => Nothing
  end.

Definition item1 : parser prop_or_arg_t :=
  p_try_map literal_item (p_then (p_spanned literal_) opt_value).
Definition item2 : parser prop_or_arg_t :=
  p_map ident_item (p_validate ident_item_check (p_then (p_spanned bare_ident) opt_value)).

Lemma inner_eq : @prop_or_arg_inner Sp E = p_choice [item1; item2; p_map Arg_ type_name_value].
Proof. reflexivity. Qed.

Lemma opt_value_none ts : hd_error (chars ts) <> Some 0x3D%N ->
  succ (@opt_value Sp E ts) None ts.
Proof.
  intros H. apply succ_or_not_none, failed_ignore_then1, failed_just_iff, H.
Qed.

Lemma opt_value_sound ts o rest : good (opt_value ts) o rest ->
  (o = None /\ rest = ts) \/
  exists e s v, o = Some v /\ ts = e :: s ++ rest /\ fst e = 0x3D%N /\ value_at s v.
Proof.
  unfold opt_value. intros G. apply good_or_not in G. destruct G as [[v [-> G]]|[-> [-> _]]]; [|auto].
  right. apply good_ignore_then in G. destruct G as [a [r1 [G1 G2]]].
  apply good_just in G1. destruct G1 as [sp [-> ->]].
  apply value_sound in G2. destruct G2 as [s [-> V]].
  exists (0x3D%N, sp), s, v. auto.
Qed.

Lemma literal_string_text s t : literal_text s (LString t) -> string_text s t.
Proof.
  intros H. inversion H; subst; [auto|].
  match goal with N : number_text _ _ |- _ => inversion N end.
Qed.

Lemma item1_sound ts i rest : good (item1 ts) i rest ->
  exists s, ts = s ++ rest /\ plain_item_at s (entry_of i).
Proof.
  unfold item1. intros G. apply good_try_map in G. destruct G as [x [G X]].
  apply good_then in G. destruct G as [nm [v [r1 [G1 [G2 ->]]]]].
  apply spanned_literal_sound in G1. destruct G1 as [s [l [-> [L ->]]]].
  apply opt_value_sound in G2. destruct G2 as [[-> ->]|[e [u [v' [-> [-> [Ee V]]]]]]].
  - assert (i = Arg_ (Value None (Spanned (span_of s) l))) as ->.
    { unfold literal_item in X. cbn [s_span s_value] in X. destruct l; inversion X; reflexivity. }
    exists s. split; [reflexivity|]. constructor. constructor. exact L.
  - unfold literal_item in X. cbn [s_span s_value] in X.
    destruct l; inversion X; subst. exists (s ++ e :: u).
    split; [aa|]. constructor; auto. constructor.
    apply literal_string_text. exact L.
Qed.

Lemma item1_keyword s l rest : In (chars s, l) keyword_literals ->
  hd_error (chars rest) <> Some 0x3D%N -> exists i, succ (item1 (s ++ rest)) i rest.
Proof.
  intros K H. exists (Arg_ (Value None (Spanned (span_of s) l))). unfold item1.
  eapply succ_try_map; [eapply succ_then; [apply succ_spanned|apply opt_value_none]|].
  - apply ne_chars. destruct K as [X|[X|[X|[]]]]; inversion X; discriminate.
  - apply keyword_literal_complete. exact K.
  - exact H.
  - unfold literal_item. cbn [s_span s_value].
    destruct K as [X|[X|[X|[]]]]; inversion X; reflexivity.
Qed.

Lemma bare_chars s : bare_text s -> Forall (fun c => c <> 0x3D%N) s.
Proof.
  assert (forall c, ident_char c -> c <> 0x3D%N) as A.
  { intros c C ->. apply id_char_spec in C. discriminate. }
  assert (forall c, ident_start c -> c <> 0x3D%N) as A2.
  { intros c C ->. apply id_sans_dig_spec in C. discriminate. }
  assert (forall c, sign_char c -> c <> 0x3D%N) as A3.
  { intros c [->| ->]; discriminate. }
  destruct 1; repeat constructor; eauto using Forall_impl.
Qed.

Lemma bare_not_kw s : bare_text s -> ~ In s keywords.
Proof.
  destruct 1 as [c C|c d t C _ _|]; auto.
  - apply sign_not_keyword, C.
  - apply sign_not_keyword, C.
Qed.

Lemma item2_sound ts i rest : failed (item1 ts) -> good (item2 ts) i rest ->
  exists s, ts = s ++ rest /\ plain_item_at s (entry_of i).
Proof.
  unfold item2. intros F G. apply good_map in G. destruct G as [x [G ->]].
  apply good_validate in G. destruct G as [y [G X]].
  unfold ident_item_check in X. inversion X as [[X1 X2]]. subst y. clear X.
  apply good_then in G. destruct G as [nm [v [r1 [G1 [G2 ->]]]]].
  cbn [snd] in X2. apply (spanned_sound bare_ident (fun s t r =>
    t = chars s /\ bare_text t /\ bare_end t (chars r))) in G1.
  2:{ intros a G. apply bare_ident_sound in G. destruct G as [s [-> [<- [B Be]]]].
      exists s. repeat split; auto. apply ne_chars. intros Z. rewrite Z in B. inversion B. }
  destruct G1 as [s [t [-> [[-> [B Be]] [-> N]]]]].
  apply opt_value_sound in G2. destruct G2 as [[-> ->]|[e [u [v' [-> [-> [Ee V]]]]]]];
    [discriminate|].
  exists (s ++ e :: u). split; [aa|]. cbn. constructor; auto. constructor 2; [exact B|].
  intros k K [m P].
  assert (exists l, In (k, l) keyword_literals) as [l Kl].
  { destruct K as [<-|[<-|[<-|[]]]]; unfold keyword_literals; cbn; eauto. }
  apply chars_split in P. destruct P as [s1 [s2 [-> [P1 P2]]]]. subst k.
  rewrite <- app_assoc in F.
  destruct (item1_keyword s1 l (s2 ++ e :: u ++ rest) Kl) as [j S].
  - destruct s2 as [|[c sc] s2].
    + exfalso. rewrite app_nil_r in B. apply bare_not_kw in B. auto.
    + cbn [app]. rewrite chars_c. cbn [hd_error fst]. intros Q. inversion Q; subst c.
      apply bare_chars in B. rewrite Forall_forall in B. apply (B 0x3D%N); [|reflexivity].
      rewrite chars_app, chars_c. apply in_or_app. right. left. reflexivity.
  - eapply succ_failed; eauto.
Qed.

Lemma inner_sound ts i rest : good (prop_or_arg_inner ts) i rest ->
  exists s, ts = s ++ rest /\ plain_item_at s (entry_of i).
Proof.
  rewrite inner_eq. intros G. apply good_choice3 in G. destruct G as [G|[[F G]|[_ [_ G]]]].
  - apply item1_sound, G.
  - apply item2_sound; auto.
  - apply good_map in G. destruct G as [v [G ->]]. apply typed_value_sound in G.
    destruct G as [s [-> V]]. exists s. split; [reflexivity|]. constructor. exact V.
Qed.

(** "/-" and spaces. *)
Lemma dash_parts_sound ts r1 (l : list unit) rest u :
  good (begin_comment 0x2D%N ts) u r1 -> good (p_repeated node_space r1) l rest ->
  exists d, ts = d ++ rest /\ slashdash_at false d rest.
Proof.
  intros G1 G2. apply good_begin_comment in G1. destruct G1 as [a [b ->]].
  apply node_spaces_sound in G2. destruct G2 as [s [-> [N W]]].
  exists ((0x2F%N, a) :: (0x2D%N, b) :: s). split; [reflexivity|]. constructor; auto.
Qed.

Lemma dash_parts_complete d rest : slashdash_at true d rest -> ns_stop (chars rest) ->
  exists r1 l, succ (begin_comment 0x2D%N (d ++ rest)) tt r1
    /\ succ (p_repeated node_space r1) l rest.
Proof.
  intros H W. destruct H as [[a sa] [b sb] s rest A B N _].
  cbn [fst] in A, B. subst. destruct (node_spaces_complete s rest N W) as [l S].
  exists (s ++ rest), l. split; [|exact S]. apply succ_begin_comment.
Qed.

Lemma item_sound ts i rest : good (prop_or_arg ts) i rest ->
  exists s, ts = s ++ rest /\ item_at false s rest (entry_of i).
Proof.
  unfold prop_or_arg. intros G. apply good_or in G. destruct G as [G|[G _]].
  - apply good_map in G. destruct G as [j [G ->]].
    apply good_ignore_then in G. destruct G as [u [r1 [G1 G2]]].
    apply good_ignore_then in G1. destruct G1 as [w [r2 [G0 G1]]].
    pose proof (dash_parts_sound _ _ _ _ _ G0 G1) as [d [-> D]].
    apply inner_sound in G2. destruct G2 as [s [-> P]].
    exists (d ++ s). split; [aa|]. cbn [entry_of]. eapply Item_skipped; eauto.
  - apply inner_sound in G. destruct G as [s [-> P]]. exists s. split; [reflexivity|].
    constructor. exact P.
Qed.

(** ** Completeness *)

(** What may follow the name and the elements of a node. *)
Definition follow (t : text) : Prop :=
  match t with
  | [] => True
  | c :: _ => In c ws_chars \/ In c newline_chars \/ In c [0x2F; 0x5C; 0x7B; 0x3B]%N
  end.

Lemma follow_num t : follow t -> num_stop t.
Proof.
  unfold follow, num_stop, stop. destruct t as [|c t]; [auto|]. intros H I.
  unfold ws_chars, newline_chars in H. cbn in I, H. lia.
Qed.

Lemma follow_eq t : follow t -> hd_error t <> Some 0x3D%N.
Proof.
  unfold follow. destruct t as [|c t]; [discriminate|]. intros H X. inversion X; subst.
  unfold ws_chars, newline_chars in H. cbn in H. lia.
Qed.

Lemma follow_digit t : follow t -> stop (digit_char 10) t.
Proof.
  intros H. apply follow_num in H. apply (num_stop_digits 10) in H; [|lia].
  unfold stop, digit_or_underscore in *. destruct t; tauto.
Qed.

Lemma spanned_literal_complete s l rest : literal_text (chars s) l -> num_stop (chars rest) ->
  succ (p_spanned literal_ (s ++ rest)) (Spanned (span_of s) l) rest.
Proof.
  intros L R. apply succ_spanned; [apply ne_chars; eapply literal_ne; eauto|].
  apply literal_complete; auto.
Qed.

Lemma spanned_type_complete s ty rest : type_text (chars s) ty ->
  succ (p_spanned type_name (s ++ rest)) (Spanned (span_of s) ty) rest.
Proof.
  intros L. apply succ_spanned; [apply ne_chars; eapply type_ne; eauto|].
  apply type_name_complete; auto.
Qed.

Lemma typed_value_complete st s ty l rest : type_text (chars st) ty ->
  literal_text (chars s) l -> num_stop (chars rest) ->
  succ (type_name_value (st ++ s ++ rest))
    (Value (Some (Spanned (span_of st) ty)) (Spanned (span_of s) l)) rest.
Proof.
  intros T L R. unfold type_name_value.
  apply (succ_map (fun r => Value (Some (fst r)) (snd r)) _ _
    (Spanned (span_of st) ty, Spanned (span_of s) l)).
  eapply succ_then; [apply spanned_type_complete, T|apply spanned_literal_complete; auto].
Qed.

Lemma typed_value_failed ts : hd_error (chars ts) <> Some 0x28%N -> failed (@type_name_value Sp E ts).
Proof.
  intros H. unfold type_name_value. apply failed_map, failed_then1, failed_map_with_span.
  apply type_name_failed, H.
Qed.

Lemma lit_not_paren c : f_lit c = true -> c <> 0x28%N.
Proof. intros H ->. discriminate. Qed.

Lemma value_complete s v rest : value_at s v -> num_stop (chars rest) ->
  succ (value_ (s ++ rest)) v rest.
Proof.
  intros H R. unfold value_. destruct H as [s l L|st s ty l T L].
  - apply succ_or_r.
    + apply typed_value_failed. pose proof L as L2. apply literal_start in L2.
      destruct L2 as [c [t [X Y]]]. rewrite chars_app, X. cbn [app hd_error].
      intros Q. inversion Q; subst. discriminate.
    + apply (succ_map (fun l => Value None l)). apply spanned_literal_complete; auto.
  - apply succ_or_l. rewrite <- app_assoc. apply typed_value_complete; auto.
Qed.

Lemma opt_value_some e s v rest : fst e = 0x3D%N -> value_at s v -> num_stop (chars rest) ->
  succ (opt_value (e :: s ++ rest)) (Some v) rest.
Proof.
  intros X V R. destruct e as [c sp]. cbn [fst] in X. subst. unfold opt_value.
  apply succ_or_not_some. eapply succ_ignore_then; [apply succ_just|].
  apply value_complete; auto.
Qed.

Lemma key_end s (rest : text) : hd_error rest = Some 0x3D%N -> bare_end s rest.
Proof.
  unfold bare_end. destruct rest as [|c r]; [discriminate|]. intros X. inversion X; subst.
  split; intros _ H.
  - apply id_sans_dig_spec in H. discriminate.
  - apply id_char_spec in H. discriminate.
Qed.

Lemma inner_complete s i rest : plain_item_at s i -> follow (chars rest) ->
  exists j, succ (prop_or_arg_inner (s ++ rest)) j rest /\ entry_of j = i.
Proof.
  intros H R. rewrite inner_eq. unfold p_choice.
  pose proof (follow_num _ R) as Rn. pose proof (follow_eq _ R) as Re.
  destruct H as [s v V|sk e s k v K Ee V].
  - exists (Arg_ v). split; [|reflexivity]. destruct V as [s l L|st s ty l T L].
    + apply succ_choice_hit. unfold item1. eapply succ_try_map.
      * eapply succ_then; [exact (spanned_literal_complete s l rest L Rn)|apply opt_value_none, Re].
      * unfold literal_item. cbn [s_span s_value]. destruct l; reflexivity.
    + pose proof T as T2. apply type_start in T2. destruct T2 as [t X].
      assert (hd_error (chars ((st ++ s) ++ rest)) = Some 0x28%N) as Hd.
      { rewrite !chars_app, X. reflexivity. }
      apply succ_choice_miss.
      * apply failed_try_map, failed_then1, failed_map_with_span.
        eapply rej_failed_hd; [apply rej_literal|exact Hd|reflexivity].
      * intros ?. apply succ_choice_miss.
        -- apply failed_map, failed_validate, failed_then1, failed_map_with_span.
           eapply rej_failed_hd; [apply rej_bare_ident|exact Hd|reflexivity].
        -- intros ?. apply succ_choice_hit. apply (succ_map Arg_). rewrite <- app_assoc.
           apply typed_value_complete; auto.
  - exists (Prop_ (Spanned (span_of sk) k) v). split; [|reflexivity].
    rewrite <- app_assoc. cbn [app]. destruct e as [ec es]. cbn [fst] in Ee. subst ec.
    assert (hd_error (chars ((0x3D%N, es) :: s ++ rest)) = Some 0x3D%N) as Hd by reflexivity.
    remember (chars sk) as csk. destruct K as [ck k K|ck B K]; subst ck.
    + apply succ_choice_hit. unfold item1. eapply succ_try_map.
      * eapply succ_then; [apply (spanned_literal_complete sk (LString k))|apply (opt_value_some (0x3D%N, es) s v rest); auto].
        -- constructor. exact K.
        -- cbn. lia.
      * reflexivity.
    + apply succ_choice_miss.
      * apply failed_try_map, failed_then1, failed_map_with_span.
        apply literal_failed_bare; auto.
      * intros ?. apply succ_choice_hit. unfold item2.
        apply (succ_map ident_item _ _ (Spanned (span_of sk) (chars sk), Some v)).
        eapply succ_validate.
        -- eapply succ_then; [apply succ_spanned|apply (opt_value_some (0x3D%N, es) s v rest); auto].
           ++ apply ne_chars. intros Z. rewrite Z in B. inversion B.
           ++ apply bare_ident_complete; [exact B|]. apply key_end, Hd.
        -- reflexivity.
Qed.

(** How an element of a node begins. *)
Definition item_start (c : char) : Prop := f_lit c = true \/ f_bare c = true \/ c = 0x28%N.

Lemma value_start s v : value_at s v ->
  exists c u, chars s = c :: u /\ item_start c.
Proof.
  unfold item_start. destruct 1 as [s l L|st s ty l T L].
  - apply literal_start in L. destruct L as [c [u [-> H]]]. exists c, u. auto.
  - apply type_start in T. destruct T as [u T]. rewrite chars_app, T.
    exists 0x28%N, (u ++ chars s). auto.
Qed.

Lemma f_bare_start c : sign_char c \/ ident_start c -> f_bare c = true.
Proof.
  unfold f_bare. intros H.
  assert (sign_char c \/ (ident_start c /\ ~ sign_char c)) as K.
  { unfold sign_char in *. destruct (N.eq_dec c 0x2B); [auto|]. destruct (N.eq_dec c 0x2D); [auto|].
    right. split; [|lia]. destruct H as [H|H]; [lia|exact H]. }
  rewrite <- id_sans_sign_dig_spec in K. unfold sign_char in K. lia.
Qed.

Lemma item_start_at s i : plain_item_at s i -> exists c u, chars s = c :: u /\ item_start c.
Proof.
  destruct 1 as [s v V|sk e s k v K Ee V].
  - eapply value_start, V.
  - rewrite chars_app. unfold item_start. inversion K; subst.
    + match goal with H : string_text _ _ |- _ => apply string_start in H; rename H into S end.
      destruct (chars sk) as [|c u]; [destruct S; discriminate|]. exists c, (u ++ chars (e :: s)).
      split; [reflexivity|]. left. cbn in S. destruct S as [S|S]; inversion S; reflexivity.
    + match goal with H : bare_text _ |- _ => apply bare_start in H; destruct H as [c [u [-> H]]] end.
      exists c, (u ++ chars (e :: s)). split; [reflexivity|]. right. left.
      apply f_bare_start, H.
Qed.

Lemma item_start_facts c : item_start c -> c <> 0x2F%N /\ c <> 0x5C%N.
Proof.
  unfold item_start. intros H. split; intros ->; destruct H as [H|[H|H]]; discriminate.
Qed.

Lemma ns_stop_start c (u : text) : c <> 0x2F%N -> c <> 0x5C%N -> ~ In c ws_chars ->
  ns_stop (c :: u).
Proof.
  intros A B C. split; [exact C|]. split.
  - intros [x X]. inversion X; subst. auto.
  - intros X. inversion X; subst. auto.
Qed.

Lemma slashdash_not_ws st d (r : toks) : slashdash_at st d r -> not_ws (chars r).
Proof. destruct 1; auto. Qed.

Lemma item_complete s i rest : item_at true s rest i -> follow (chars rest) ->
  exists j, succ (prop_or_arg (s ++ rest)) j rest /\ entry_of j = i.
Proof.
  intros H R. unfold prop_or_arg. destruct H as [s rest i P|d s rest i D P].
  - destruct (inner_complete s i rest P R) as [j [S J]]. exists j. split; [|exact J].
    apply succ_or_r; [|exact S].
    apply failed_map, failed_ignore_then1, failed_ignore_then1, failed_begin_comment.
    apply item_start_at in P. destruct P as [c [u [X Y]]]. rewrite chars_app, X.
    intros [y Z]. inversion Z; subst. apply item_start_facts in Y. destruct Y. congruence.
  - destruct (inner_complete s i rest P R) as [j [S J]]. exists Ignore_. split; [|reflexivity].
    apply item_start_at in P. destruct P as [c [u [X Y]]]. apply item_start_facts in Y.
    assert (ns_stop (chars (s ++ rest))) as Ns.
    { rewrite chars_app, X. apply ns_stop_start; try apply Y.
      pose proof (slashdash_not_ws _ _ _ D) as W. rewrite chars_app, X in W. exact W. }
    destruct (dash_parts_complete d (s ++ rest) D Ns) as [r1 [l [S1 S2]]].
    apply succ_or_l. rewrite <- app_assoc.
    apply (succ_map (fun _ => Ignore_) _ _ j).
    eapply succ_ignore_then; [|exact S]. eapply succ_ignore_then; [exact S1|exact S2].
Qed.

End Items.
