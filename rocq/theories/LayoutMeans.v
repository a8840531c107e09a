(** The texts of [Layout.v] mean their contents. *)

From Coq Require Import NArith PeanoNat List Bool String Lia.
From Coq Require Import ZifyBool.
From Verif Require Import Chars Ast Errors Chumsky Spans Grammar Kdl KdlText KdlChars Layout Good GrammarNear
  LexSpace LexLit LexIdent PropMap Items Nodes NodesComplete Erase Meaning.
Import ListNotations.
Local Open Scope list_scope.
Local Existing Instance unit_env.

Ltac pc := rewrite <- ?plain_app, ?plain_chars.

(** ** Gaps *)

Lemma flat_map_many {A} (R : text -> text -> Prop) (f : A -> text) l :
  Forall (fun x => forall rest, R (f x) rest) l -> forall rest, many R (flat_map f l) rest.
Proof.
  induction 1 as [|x l H _ IH]; intros rest; cbn [flat_map]; constructor; auto.
Qed.

Lemma welem_at w : wf_welem w -> forall rest, ws_at true (render_welem w) rest.
Proof. destruct w; cbn; intros H rest; constructor; auto. Qed.

Lemma newline_text_at nl : newline_text nl -> forall rest,
  nl = [0x0D%N] -> hd_error rest <> Some 0x0A%N -> newline_at nl rest.
Proof. intros _ rest -> H. constructor. exact H. Qed.

Lemma newline_not_cr nl : newline_text nl -> nl <> [0x0D%N] -> forall rest, newline_at nl rest.
Proof.
  intros [->|[c [C ->]]] H rest; constructor; auto. intros ->. auto.
Qed.

Lemma newline_follow nl rest : newline_text nl -> hd_error rest <> Some 0x0A%N ->
  newline_at nl rest.
Proof.
  intros H R. destruct (list_eq_dec N.eq_dec nl [0x0D%N]) as [->|X].
  - constructor. exact R.
  - apply newline_not_cr; assumption.
Qed.

Lemma comment_follow body nl rest : no_newline body -> newline_at nl rest ->
  line_comment_at (str "//" ++ body ++ nl) rest.
Proof. intros. constructor; assumption. Qed.

Lemma gelem_at g : wf_gelem g -> forall rest, nspace_at true (render_gelem g) rest.
Proof.
  destruct g as [w|ws cm nl]; cbn [wf_gelem render_gelem]; intros H rest.
  - apply NS_ws, welem_at, H.
  - destruct H as [W [Nl [Nr C]]].
    assert (many (ws_at true) (flat_map render_welem ws)
      ((match cm with None => [] | Some b => str "//" ++ b end ++ nl) ++ rest)) as M.
    { apply flat_map_many. eapply Forall_impl; [|exact W]. intros w Hw r. apply welem_at, Hw. }
    destruct cm as [b|].
    + apply NS_esc_comment; [exact M|]. rewrite <- app_assoc. constructor; [exact C|].
      apply newline_not_cr; assumption.
    + apply NS_esc_newline; [exact M|]. apply newline_not_cr; assumption.
Qed.

Lemma gap_at g : wf_gap g -> forall rest, many (nspace_at true) (render_gap g) rest.
Proof.
  intros [W _]. apply flat_map_many. eapply Forall_impl; [|exact W]. intros x Hx r.
  apply gelem_at, Hx.
Qed.

Lemma block_hd b s : block b s -> exists t, s = 0x2F%N :: 0x2A%N :: t.
Proof. destruct 1. cbn. eauto. Qed.

Lemma lelem_lf l : wf_lelem l -> hd_error (render_lelem l) = Some 0x0A%N ->
  l = LNewline [0x0A%N].
Proof.
  destruct l as [[c|s]|nl|body nl]; cbn [wf_lelem wf_welem render_lelem render_welem];
    intros W H.
  - injection H as ->. exfalso. wsx.
  - apply block_hd in W. destruct W as [t ->]. discriminate.
  - destruct W as [->|[c [C ->]]]; [discriminate|]. injection H as ->. reflexivity.
  - discriminate.
Qed.

Lemma lelem_ne l : wf_lelem l -> render_lelem l <> [].
Proof.
  destruct l as [[c|s]|nl|body nl]; cbn [wf_lelem wf_welem render_lelem render_welem];
    intros W H; try discriminate.
  - apply block_hd in W. destruct W as [t ->]. discriminate.
  - destruct W as [->|[c [C ->]]]; discriminate.
Qed.

(** A gap that begins with LF begins with the element LF. *)
Lemma lgap_lf lg rest : wf_lgap lg -> hd_error rest <> Some 0x0A%N ->
  hd_error (render_lgap lg ++ rest) = Some 0x0A%N ->
  exists lg', lg = LNewline [0x0A%N] :: lg' /\ wf_lgap lg'.
Proof.
  intros W R H. destruct W as [|l lg Wl W]; [destruct (R H)|].
  unfold render_lgap in H. cbn [flat_map] in H. pose proof (lelem_ne l Wl) as Ne.
  rewrite <- app_assoc in H.
  destruct (render_lelem l) as [|c u] eqn:X; [congruence|]. cbn in H. injection H as ->.
  rewrite (lelem_lf l Wl); [eauto|]. rewrite X. reflexivity.
Qed.

Lemma lgap_at_len : forall n lg rest, List.length lg <= n -> wf_lgap lg ->
  hd_error rest <> Some 0x0A%N -> many (lspace_at true) (render_lgap lg) rest.
Proof.
  induction n as [|n IH]; intros lg rest Hn W R.
  - destruct lg; [constructor|cbn in Hn; lia].
  - destruct W as [|l lg Wl W]; [constructor|]. cbn in Hn.
    change (render_lgap (l :: lg)) with (render_lelem l ++ render_lgap lg).
    destruct (list_eq_dec N.eq_dec (firstn 1 (render_lgap lg ++ rest)) [0x0A%N]) as [X|X].
    + assert (hd_error (render_lgap lg ++ rest) = Some 0x0A%N) as Y.
      { destruct (render_lgap lg ++ rest); inversion X. reflexivity. }
      destruct (lgap_lf lg rest W R Y) as [lg' [-> W']].
      change (render_lgap (LNewline [0x0A%N] :: lg')) with ([0x0A%N] ++ render_lgap lg').
      destruct l as [w|nl|body nl].
      * apply Many_cons; [apply LS_ws, welem_at, Wl|].
        apply IH with (lg := LNewline [0x0A%N] :: lg'); [cbn in *; lia|exact W|exact R].
      * destruct (list_eq_dec N.eq_dec nl [0x0D%N]) as [->|N].
        -- change (render_lelem (LNewline [0x0D%N]) ++ [0x0A%N] ++ render_lgap lg')
             with ([0x0D%N; 0x0A%N] ++ render_lgap lg').
           apply Many_cons; [apply LS_newline; constructor|]. apply IH; auto. cbn in Hn. lia.
        -- apply Many_cons; [apply LS_newline, newline_not_cr; assumption|].
           apply IH with (lg := LNewline [0x0A%N] :: lg'); [cbn in *; lia|exact W|exact R].
      * destruct Wl as [Wb Wn]. destruct (list_eq_dec N.eq_dec nl [0x0D%N]) as [->|N].
        -- replace (render_lelem (LComment body [0x0D%N]) ++ [0x0A%N] ++ render_lgap lg')
             with ((str "//" ++ body ++ [0x0D%N; 0x0A%N]) ++ render_lgap lg')
             by (cbn [render_lelem]; rewrite <- !app_assoc; reflexivity).
           apply Many_cons; [apply LS_comment; constructor; [assumption|constructor]|].
           apply IH; auto. cbn in Hn. lia.
        -- apply Many_cons.
           ++ apply LS_comment, comment_follow; [assumption|]. apply newline_not_cr; assumption.
           ++ apply IH with (lg := LNewline [0x0A%N] :: lg'); [cbn in *; lia|exact W|exact R].
    + assert (hd_error (render_lgap lg ++ rest) <> Some 0x0A%N) as Y.
      { destruct (render_lgap lg ++ rest); [discriminate|]. intros Z. injection Z as ->. auto. }
      apply Many_cons; [|apply IH; auto; lia].
      destruct l as [w|nl|body nl]; cbn [render_lelem].
      * apply LS_ws, welem_at, Wl.
      * apply LS_newline, newline_follow; assumption.
      * destruct Wl. apply LS_comment, comment_follow; [assumption|].
        apply newline_follow; assumption.
Qed.

Lemma lgap_at lg rest : wf_lgap lg -> hd_error rest <> Some 0x0A%N ->
  many (lspace_at true) (render_lgap lg) rest.
Proof. intros. eapply lgap_at_len; eauto. Qed.

(** ** First characters *)

(** Not an identifier character, nor U+0021. *)
Definition nonident (c : char) : Prop := ~ ident_char c /\ c <> 0x21%N.

Definition stops (t : text) : Prop := forall c u, t = c :: u -> nonident c.

Lemma stops_nil : stops [].
Proof. intros c u H. discriminate. Qed.

Lemma stops_cons c t : nonident c -> stops (c :: t).
Proof. intros H d u [= <- <-]. exact H. Qed.

Lemma stops_app a b : stops a -> (a = [] -> stops b) -> stops (a ++ b).
Proof.
  intros A B. destruct a as [|c a]; [apply B, eq_refl|]. apply stops_cons. eapply A. reflexivity.
Qed.

Lemma nonident_punct c : In c punctuation -> nonident c.
Proof.
  intros H. split; [intros [_ [X _]]; auto|]. intros ->. cbn in H. lia.
Qed.

Lemma nonident_ws c : In c ws_chars -> c <> 0xFEFF%N -> nonident c.
Proof.
  intros H F. split; [intros [_ [_ [_ X]]]; auto|]. intros ->. wsx.
Qed.

Lemma nonident_nl c : In c newline_chars -> nonident c.
Proof.
  intros H. split; [intros [_ [_ [X _]]]; auto|]. intros ->. wsx.
Qed.

Lemma welem_stops w : wf_welem w -> hd_error (render_welem w) <> Some 0xFEFF%N ->
  stops (render_welem w) /\ render_welem w <> [].
Proof.
  destruct w as [c|s]; cbn [wf_welem render_welem]; intros W H.
  - split; [|discriminate]. apply stops_cons, nonident_ws; [exact W|]. intros ->. apply H. reflexivity.
  - apply block_hd in W. destruct W as [t ->]. split; [|discriminate].
    apply stops_cons, nonident_punct. cbn; tauto.
Qed.

Lemma gelem_ne g : wf_gelem g -> render_gelem g <> [].
Proof.
  destruct g as [[c|s]|ws cm nl]; cbn [wf_gelem wf_welem render_gelem render_welem]; intros W;
    try discriminate. apply block_hd in W. destruct W as [t ->]. discriminate.
Qed.

Lemma gap_stops g : wf_gap g -> stops (render_gap g).
Proof.
  intros [W H]. destruct W as [|x g Wx W]; [apply stops_nil|].
  change (render_gap (x :: g)) with (render_gelem x ++ render_gap g) in *.
  pose proof (gelem_ne x Wx) as Ne. apply stops_app; [|congruence].
  destruct x as [w|ws cm nl]; cbn [render_gelem] in *.
  - apply welem_stops; [exact Wx|]. intros X. apply H.
    destruct (render_welem w); [discriminate|exact X].
  - apply stops_cons, nonident_punct. cbn; tauto.
Qed.

Lemma gap_ne g : wf_gap g -> g <> [] -> render_gap g <> [].
Proof.
  intros [W _] N. destruct W as [|x g Wx W]; [congruence|].
  change (render_gap (x :: g)) with (render_gelem x ++ render_gap g).
  pose proof (gelem_ne x Wx). destruct (render_gelem x); [congruence|discriminate].
Qed.

Lemma lit_not_ws c : f_lit c = true -> ~ In c ws_chars.
Proof.
  unfold f_lit, f_str, f_kw, f_num. intros H. rewrite <- ws_char_spec.
  assert (is_digit 10 c = true -> 0x30 <= c /\ c <= 0x39)%N as D.
  { intros X. apply dec_digit_spec, (is_digit_spec 10); [lia|exact X]. }
  rewrite ws_char_spec. destruct (is_digit 10 c); [specialize (D eq_refl); wsx|]. wsx.
Qed.

Lemma ident_not_ws c : sign_char c \/ ident_start c -> c <> 0xFEFF%N -> ~ In c ws_chars.
Proof.
  intros [[->| ->]|[[->|[_ [_ [_ X]]]] _]] F; try wsx; auto.
Qed.

Lemma dvalue_start v : wf_dvalue v -> exists c t, render_dvalue v = c :: t /\ ~ In c ws_chars.
Proof.
  intros [T L]. unfold render_dvalue. destruct (dv_type v) as [[s ty]|]; cbn [render_type] in *.
  - apply type_start in T. destruct T as [t ->]. eexists; eexists; split; [reflexivity|]. wsx.
  - apply literal_start in L. destruct L as [c [t [-> C]]]. exists c, t. split; [reflexivity|].
    apply lit_not_ws, C.
Qed.

Lemma plain_item_start i : wf_plain_item i ->
  exists c t, render_item i = c :: t /\ ~ In c ws_chars.
Proof.
  destruct i as [v|ks k v|g i]; cbn [wf_plain_item render_item]; intros W.
  - apply dvalue_start, W.
  - destruct W as [K [F _]]. destruct K as [s t S|s B _].
    + apply string_start in S. destruct s as [|c s]; [destruct S; discriminate|].
      exists c, (s ++ 0x3D%N :: render_dvalue v). split; [reflexivity|]. cbn in S.
      destruct S as [S|S]; injection S as ->; wsx.
    + apply bare_start in B. destruct B as [c [t [-> C]]].
      exists c, (t ++ 0x3D%N :: render_dvalue v). split; [reflexivity|].
      apply ident_not_ws; [exact C|]. intros ->. apply F. reflexivity.
  - contradiction.
Qed.

Lemma item_start_ws i rest : wf_item i -> not_ws (render_item i ++ rest).
Proof.
  intros W. assert (exists c t, render_item i = c :: t /\ ~ In c ws_chars) as [c [t [-> C]]].
  { destruct i as [v|ks k v|g i]; [apply (plain_item_start (DArg v)), W
    |apply (plain_item_start (DProp ks k v)), W|].
    exists 0x2F%N; eexists; split; [reflexivity|]. wsx. }
  exact C.
Qed.

(** ** Items *)

Lemma dvalue_at v : wf_dvalue v -> value_at (plain (render_dvalue v)) (plain_value v).
Proof.
  intros [T L]. unfold render_dvalue, plain_value. destruct (dv_type v) as [[s ty]|].
  - cbn [render_type plain_type option_map]. rewrite plain_app.
    pose proof (Val_typed (plain s) (plain (dv_text v)) ty (dv_literal v)) as H.
    rewrite !uspan, !plain_chars in H. apply H; assumption.
  - cbn [render_type plain_type option_map app]. rewrite <- (uspan (plain (dv_text v))).
    apply Val_plain. rewrite plain_chars. exact L.
Qed.

Definition item_entry (i : ditem) : @entry unit :=
  match i with
  | DArg v => Argument (plain_value v)
  | DProp _ k v => Property (Spanned tt k) (plain_value v)
  | DSkip _ _ => Nothing
  end.

Lemma plain_item_render i : wf_plain_item i ->
  plain_item_at (plain (render_item i)) (item_entry i).
Proof.
  destruct i as [v|ks k v|g i]; cbn [wf_plain_item render_item item_entry]; intros W.
  - apply Item_arg, dvalue_at, W.
  - destruct W as [K [_ V]]. rewrite plain_app.
    change (plain (0x3D%N :: render_dvalue v)) with ((0x3D%N, tt) :: plain (render_dvalue v)).
    pose proof (Item_prop (plain ks) (0x3D%N, tt) (plain (render_dvalue v)) k (plain_value v))
      as H.
    rewrite !uspan, !plain_chars in H. apply H; [exact K|reflexivity|]. apply dvalue_at, V.
  - contradiction.
Qed.

Lemma slashdash_render g rest : wf_gap g -> not_ws rest ->
  slashdash_at true (plain (str "/-" ++ render_gap g)) (plain rest).
Proof.
  intros W N. rewrite plain_app.
  change (plain (str "/-")) with [(0x2F%N, tt); (0x2D%N, tt)].
  apply (Slashdash true (0x2F%N, tt) (0x2D%N, tt) (plain (render_gap g)) (plain rest));
    try reflexivity.
  - unfold nspaces. pc. apply gap_at, W.
  - pc. exact N.
Qed.

Lemma not_ws_app a b : a <> [] -> not_ws a -> not_ws (a ++ b).
Proof. destruct a; [congruence|]. intros _ H. exact H. Qed.

Lemma item_render i rest : wf_item i ->
  item_at true (plain (render_item i)) (plain rest) (item_entry i).
Proof.
  intros W. destruct i as [v|ks k v|g i].
  - apply Item_plain, (plain_item_render (DArg v)), W.
  - apply Item_plain, (plain_item_render (DProp ks k v)), W.
  - destruct W as [G W]. cbn [render_item item_entry]. rewrite app_assoc, plain_app.
    apply Item_skipped with (i := item_entry i); [|apply plain_item_render, W].
    rewrite <- plain_app. apply slashdash_render; [exact G|].
    destruct (plain_item_start i W) as [c [t [-> C]]]. exact C.
Qed.

Definition entries (l : list (gap * ditem)) := map (fun gi => item_entry (snd gi)) l.

Lemma entries_args l : arguments_of (entries l) = item_args l.
Proof.
  induction l as [|[g [v|ks k v|g' i]] l IH]; cbn; [reflexivity| | |]; f_equal; exact IH.
Qed.

Lemma entries_props l : properties_of (entries l) = item_props l.
Proof.
  induction l as [|[g [v|ks k v|g' i]] l IH]; cbn; [reflexivity| | |]; f_equal; exact IH.
Qed.

Lemma items_render l : wf_items l -> forall rest,
  items_at true (plain (render_items l)) (plain rest) (entries l).
Proof.
  induction 1 as [|[g i] l [G [Ne W]] H IH]; intros rest; [constructor|].
  cbn [fst snd] in *.
  change (render_items ((g, i) :: l)) with ((render_gap g ++ render_item i) ++ render_items l).
  rewrite <- app_assoc, !plain_app.
  change (entries ((g, i) :: l)) with (item_entry i :: entries l).
  apply Items_cons.
  - pose proof (gap_ne g G Ne). destruct (render_gap g); [congruence|discriminate].
  - unfold nspaces. pc. apply gap_at, G.
  - pc. apply item_start_ws, W.
  - pc. apply item_render, W.
  - apply IH.
Qed.

Lemma items_stops l : wf_items l -> stops (render_items l).
Proof.
  destruct 1 as [|[g i] l [G [Ne W]] H]; [apply stops_nil|]. cbn [fst snd] in *.
  change (render_items ((g, i) :: l)) with ((render_gap g ++ render_item i) ++ render_items l).
  rewrite <- app_assoc. apply stops_app; [apply gap_stops, G|].
  intros X. destruct (gap_ne g G Ne X).
Qed.

(** ** Terminators *)

Lemma newline_text_hd nl : newline_text nl -> exists c u, nl = c :: u /\ In c newline_chars.
Proof.
  intros [->|[c [C ->]]]; [exists 0x0D%N, [0x0A%N]|exists c, []]; split; auto. cbn. tauto.
Qed.

Lemma term_stops t : wf_term t -> stops (render_term t).
Proof.
  destruct t as [nl|b nl| | |b]; cbn [wf_term render_term]; intros W.
  - apply newline_text_hd in W. destruct W as [c [u [-> C]]]. apply stops_cons, nonident_nl, C.
  - apply stops_cons, nonident_punct. cbn; tauto.
  - apply stops_cons, nonident_punct. cbn; tauto.
  - apply stops_nil.
  - apply stops_cons, nonident_punct. cbn; tauto.
Qed.

Lemma term_ne t : wf_term t -> is_eof t = false -> render_term t <> [].
Proof.
  destruct t as [nl|b nl| | |b]; cbn [wf_term render_term is_eof]; intros W H; try discriminate.
  apply newline_text_hd in W. destruct W as [c [u [-> C]]]. discriminate.
Qed.

Lemma term_at t rest : wf_term t -> (is_eof t = true -> rest = []) ->
  hd_error rest <> Some 0x0A%N -> terminator_at (render_term t) rest.
Proof.
  destruct t as [nl|b nl| | |b]; cbn [wf_term render_term is_eof]; intros W E R.
  - apply Term_newline, newline_follow; assumption.
  - destruct W. apply Term_comment, comment_follow; [assumption|].
    apply newline_follow; assumption.
  - apply Term_semicolon.
  - rewrite (E eq_refl). apply Term_eof.
  - rewrite (E eq_refl). apply Term_comment, LC_eof, W.
Qed.

(** ** Nodes *)

Scheme dnode_mut := Induction for dnode Sort Prop
  with dchildren_mut := Induction for dchildren Sort Prop
  with dlist_mut := Induction for dlist Sort Prop.
Combined Scheme d_mut from dnode_mut, dchildren_mut, dlist_mut.

(** Every node has contents. *)
Lemma property_map_ex {Sp} (l : list (spanned text Sp * value Sp)) :
  exists m, property_map l m.
Proof.
  eexists. pose proof (property_map_fold l [] []) as H. cbn [app] in H. apply H.
  apply property_map_nil.
Qed.

Lemma content_ex :
  (forall n, exists c, node_content n c)
  /\ (forall ch, exists c, children_content ch c)
  /\ (forall l, exists c, list_content l c).
Proof.
  apply d_mut.
  - intros ty ns nm items ch [c C] g t. destruct (property_map_ex (item_props items)) as [ps P].
    eexists. econstructor; eassumption.
  - eexists. constructor.
  - intros g lg l [c C]. eexists. constructor. eassumption.
  - intros g sg lg l _. eexists. constructor.
  - eexists. constructor.
  - intros [g|] n [c C] lg l [cl Cl]; eexists; constructor; eassumption.
Qed.

Definition set_term (n : dnode) (t : dterm) : dnode :=
  match n with DNode ty ns nm items ch g _ => DNode ty ns nm items ch g t end.

Lemma name_start ns nm : wf_name ns nm ->
  exists c u, ns = c :: u /\ ~ In c ws_chars /\ c <> 0x0A%N.
Proof.
  destruct 1 as [s B F|s t X].
  - apply bare_start in B. destruct B as [c [u [-> C]]]. exists c, u. split; [reflexivity|].
    split; [apply ident_not_ws; [exact C|intros ->; apply F; reflexivity]|].
    intros ->. destruct C as [[C|C]|[[C|[C _]] _]]; lia.
  - destruct X. eexists; eexists; split; [reflexivity|]. split; [wsx|lia].
Qed.

Lemma node_start_text last n : wf_node last n ->
  exists c u, render_node n = c :: u /\ ~ In c ws_chars /\ c <> 0x0A%N.
Proof.
  destruct 1 as [last ty ns nm items ch g t T Nm I C G W E]. cbn [render_node].
  destruct ty as [[s ty]|]; cbn [render_type wf_type] in *.
  - apply type_start in T. destruct T as [u ->]. eexists; eexists; split; [reflexivity|].
    split; [wsx|lia].
  - apply name_start in Nm. destruct Nm as [c [u [-> X]]].
    eexists; eexists; split; [reflexivity|]. exact X.
Qed.

Lemma children_stops ch : wf_children ch -> stops (render_children ch).
Proof.
  destruct 1 as [|g lg l G LG L|g sg lg l G SG LG L]; cbn [render_children].
  - apply stops_nil.
  - apply stops_app; [apply gap_stops, G|]. intros _. apply stops_cons, nonident_punct.
    cbn; tauto.
  - apply stops_app; [apply gap_stops, G|]. intros _. apply stops_cons, nonident_punct.
    cbn; tauto.
Qed.

Lemma name_at ns nm tail : wf_name ns nm -> stops tail -> ident_at ns tail nm.
Proof.
  destruct 1 as [s B F|s t X]; intros S.
  - apply ID_bare; [exact B|]. destruct tail as [|c u]; [exact I|].
    destruct (S c u eq_refl) as [A D]. split; intros _; [|exact A].
    intros [[Y|Y] _]; auto.
  - apply ID_escaped, X.
Qed.

Lemma list_hd top l rest : wf_list top l -> hd_error rest <> Some 0x0A%N ->
  hd_error (render_list l ++ rest) <> Some 0x0A%N.
Proof.
  destruct 1 as [|top skip n lg l Sk N LG L]; intros R; [exact R|]. cbn [render_list].
  destruct skip as [g|]; [discriminate|]. apply node_start_text in N.
  destruct N as [c [u [-> [_ X]]]]. cbn. congruence.
Qed.

Definition Pn (n : dnode) : Prop := forall t last rest c,
  wf_node last (set_term n t) -> (last = true -> rest = []) ->
  terminator_at (render_term t) rest -> node_content n c ->
  node_at true (plain (render_node (set_term n t))) (plain rest) c.
Definition Pc (ch : dchildren) : Prop := forall rest c,
  wf_children ch -> children_content ch c ->
  children_at true (plain (render_children ch)) (plain rest) c.
Definition Pl (l : dlist) : Prop := forall top rest c,
  wf_list top l -> (top = true -> rest = []) -> hd_error rest <> Some 0x0A%N ->
  list_content l c ->
  node_list_at true (plain (render_list l)) (plain rest) c.

Lemma braces_render lg l rest c : Pl l -> wf_lgap lg -> wf_list false l -> list_content l c ->
  braces_at true (plain (0x7B%N :: render_lgap lg ++ render_list l ++ [0x7D%N])) (plain rest) c.
Proof.
  intros IH LG L C.
  change (plain (0x7B%N :: render_lgap lg ++ render_list l ++ [0x7D%N]))
    with ((0x7B%N, tt) :: plain (render_lgap lg ++ render_list l ++ [0x7D%N])).
  rewrite app_assoc, plain_app. change (plain [0x7D%N]) with [(0x7D%N, tt)].
  apply Braces; [reflexivity|reflexivity|]. rewrite plain_app.
  change ((0x7D%N, tt) :: plain rest) with (plain (0x7D%N :: rest)).
  apply Nodes.
  - unfold lspaces. pc. apply lgap_at; [exact LG|]. eapply list_hd; [exact L|discriminate].
  - apply (IH false); [exact L|discriminate|discriminate|exact C].
Qed.

Lemma children_some g lg l : Pl l -> Pc (DSome g lg l).
Proof.
  intros IH rest c W C. inversion W as [|g' lg' l' G LG L| ]; subst.
  inversion C as [|g' lg' l' c' Cl| ]; subst. cbn [render_children]. rewrite plain_app.
  rewrite <- (uspan (plain (0x7B%N :: render_lgap lg ++ render_list l ++ [0x7D%N]))).
  apply Ch_some; [unfold nspaces; pc; apply gap_at, G|]. apply braces_render; assumption.
Qed.

Lemma children_skipped g sg lg l : Pl l -> Pc (DSkipped g sg lg l).
Proof.
  intros IH rest c W C. inversion W as [| |g' sg' lg' l' G SG LG L]; subst.
  inversion C; subst. cbn [render_children].
  destruct (proj2 (proj2 content_ex) l) as [cl Cl].
  rewrite (app_assoc (str "/-")), plain_app, plain_app.
  apply Ch_skipped with (l := cl).
  - unfold nspaces. pc. apply gap_at, G.
  - pc. apply slashdash_render; [exact SG|]. cbn. wsx.
  - apply braces_render; assumption.
Qed.

Lemma node_render ty ns nm items ch g t0 : Pc ch -> Pn (DNode ty ns nm items ch g t0).
Proof.
  intros IH t last rest c W Lr R C. cbn [set_term] in *.
  inversion W as [x1 x2 x3 x4 x5 x6 x7 x8 T Nm I Wc G Wt E]; subst.
  inversion C as [y1 y2 y3 y4 y5 y6 y7 ps c' Pm Cc]; subst. cbn [render_node].
  rewrite !plain_app. rewrite <- (uspan (plain ns)). rewrite <- entries_args.
  assert (stops (render_gap g ++ render_term t ++ rest)) as S1.
  { apply stops_app; [apply gap_stops, G|]. intros _.
    apply stops_app; [apply term_stops, Wt|]. intros X. destruct (is_eof t) eqn:Et.
    - rewrite (Lr (E eq_refl)). apply stops_nil.
    - destruct (term_ne t Wt Et X). }
  assert (opt_type_at (plain (render_type ty)) (plain_type ty)) as OT.
  { destruct ty as [[s ty]|]; cbn [render_type plain_type option_map snd]; [|constructor].
    rewrite <- (uspan (plain s)). constructor. rewrite plain_chars. exact T. }
  apply Node_ with (l := entries items).
  - exact OT.
  - pc. apply name_at; [exact Nm|]. apply stops_app; [apply items_stops, I|]. intros _.
    apply stops_app; [apply children_stops, Wc|]. intros _. exact S1.
  - pc. apply items_render, I.
  - pc. apply IH; assumption.
  - unfold nspaces. pc. apply gap_at, G.
  - pc. exact R.
  - rewrite entries_props. exact Pm.
Qed.

Lemma wf_set_term last n t : wf_node last n -> wf_term t ->
  (is_eof t = true -> last = true) -> wf_node last (set_term n t).
Proof. destruct 1. cbn [set_term]. constructor; assumption. Qed.

Lemma set_term_content n t c : node_content n c -> node_content (set_term n t) c.
Proof. destruct 1. cbn [set_term]. constructor; assumption. Qed.

(** A terminator that ends with CR takes an LF after it. *)
Definition end_cr (t : dterm) : option dterm :=
  match t with
  | TNewline [0x0D%N] => Some (TNewline [0x0D%N; 0x0A%N])
  | TComment b [0x0D%N] => Some (TComment b [0x0D%N; 0x0A%N])
  | _ => None
  end.

Lemma newline_cr nl : newline_text nl -> nl <> [0x0D%N] ->
  forall (A : Type) (a b : A), match nl with [0x0D%N] => a | _ => b end = b.
Proof.
  intros [->|[c [C ->]]] H A a b; [reflexivity|].
  cbn [newline_chars In] in C.
  destruct C as [<-|[<-|[<-|[<-|[<-|[<-|[]]]]]]]; try reflexivity. destruct (H eq_refl).
Qed.

Lemma end_cr_some t t' : end_cr t = Some t' -> wf_term t ->
  render_term t' = render_term t ++ [0x0A%N] /\ wf_term t' /\ is_eof t' = false
  /\ forall rest, terminator_at (render_term t') rest.
Proof.
  destruct t as [nl|b nl| | |b]; cbn [end_cr wf_term]; intros H W; try discriminate.
  - destruct (list_eq_dec N.eq_dec nl [0x0D%N]) as [->|X].
    + injection H as <-. split; [reflexivity|]. split; [left; reflexivity|].
      split; [reflexivity|]. intros rest. apply Term_newline. constructor.
    + rewrite (newline_cr nl W X) in H. discriminate.
  - destruct W as [B W]. destruct (list_eq_dec N.eq_dec nl [0x0D%N]) as [->|X].
    + injection H as <-. cbn [render_term]. split; [rewrite <- !app_assoc; reflexivity|].
      split; [split; [exact B|left; reflexivity]|].
      split; [reflexivity|]. intros rest. apply Term_comment. constructor; [exact B|constructor].
    + rewrite (newline_cr nl W X) in H. discriminate.
Qed.

Lemma end_cr_none t rest : end_cr t = None -> wf_term t -> is_eof t = false ->
  terminator_at (render_term t) rest.
Proof.
  destruct t as [nl|b nl| | |b]; cbn [end_cr wf_term is_eof render_term]; intros H W E;
    try discriminate.
  - apply Term_newline, newline_not_cr; [exact W|]. intros ->. discriminate.
  - destruct W as [B W]. apply Term_comment, comment_follow; [exact B|].
    apply newline_not_cr; [exact W|]. intros ->. discriminate.
  - apply Term_semicolon.
Qed.

(** A node and the space after it. *)
Lemma node_and_space top n lg l rest c : Pn n ->
  wf_node (top && match lg, l with [], DNil => true | _, _ => false end) n ->
  wf_lgap lg -> wf_list top l -> (top = true -> rest = []) ->
  hd_error rest <> Some 0x0A%N -> node_content n c ->
  exists s sp, s ++ sp = render_node n ++ render_lgap lg /\ not_ws s /\ s <> []
    /\ node_at true (plain s) (plain (sp ++ render_list l ++ rest)) c
    /\ many (lspace_at true) sp (render_list l ++ rest).
Proof.
  intros IH W LG L Lr R C. destruct n as [ty ns nm items ch g t].
  pose proof (list_hd top l rest L R) as Lh.
  pose proof (node_start_text _ _ W) as St.
  assert (W' := W). inversion W' as [x1 x2 x3 x4 x5 x6 x7 x8 T Nm I Wc G Wt E]; subst.
  destruct (list_eq_dec N.eq_dec
              (firstn 1 (render_lgap lg ++ render_list l ++ rest)) [0x0A%N]) as [X|X].
  - assert (hd_error (render_lgap lg ++ render_list l ++ rest) = Some 0x0A%N) as Y.
    { destruct (render_lgap lg ++ render_list l ++ rest); inversion X. reflexivity. }
    destruct (lgap_lf lg _ LG Lh Y) as [lg' [-> W'']].
    rewrite andb_false_r in *.
    assert (is_eof t = false) as Ef. { destruct (is_eof t); [discriminate (E eq_refl)|reflexivity]. }
    destruct (end_cr t) as [t'|] eqn:Et.
    + destruct (end_cr_some t t' Et Wt) as [Rt [Wt' [Et' At]]].
      exists (render_node (DNode ty ns nm items ch g t')), (render_lgap lg').
      assert (render_node (DNode ty ns nm items ch g t')
              = render_node (DNode ty ns nm items ch g t) ++ [0x0A%N]) as Q.
      { cbn [render_node]. rewrite Rt, <- !app_assoc. reflexivity. }
      split; [|split; [|split; [|split]]].
      * rewrite Q, <- app_assoc. reflexivity.
      * rewrite Q. destruct St as [c0 [u [-> [Z _]]]]. exact Z.
      * rewrite Q. destruct St as [c0 [u [-> [Z _]]]]. discriminate.
      * apply (IH t' false); [|discriminate|apply At|exact C].
        apply (wf_set_term false _ t'); [exact W|exact Wt'|]. congruence.
      * apply lgap_at; [exact W''|exact Lh].
    + exists (render_node (DNode ty ns nm items ch g t)), (render_lgap (LNewline [0x0A%N] :: lg')).
      split; [reflexivity|]. split; [|split; [|split]].
      * destruct St as [c0 [u [-> [Z _]]]]. exact Z.
      * destruct St as [c0 [u [-> [Z _]]]]. discriminate.
      * apply (IH t false); [exact W|discriminate|apply end_cr_none; assumption|exact C].
      * apply lgap_at; [exact LG|exact Lh].
  - assert (hd_error (render_lgap lg ++ render_list l ++ rest) <> Some 0x0A%N) as Y.
    { destruct (render_lgap lg ++ render_list l ++ rest); [discriminate|].
      intros Z. injection Z as ->. auto. }
    exists (render_node (DNode ty ns nm items ch g t)), (render_lgap lg).
    split; [reflexivity|]. split; [|split; [|split]].
    + destruct St as [c0 [u [-> [Z _]]]]. exact Z.
    + destruct St as [c0 [u [-> [Z _]]]]. discriminate.
    + assert ((top && match lg, l with [], DNil => true | _, _ => false end) = true ->
              render_lgap lg ++ render_list l ++ rest = []) as Z.
      { intros Z. apply andb_true_iff in Z. destruct Z as [Z1 Z2].
        destruct lg; [|discriminate]. destruct l; [|discriminate]. rewrite (Lr Z1). reflexivity. }
      apply (IH t _ _ c W Z); [|exact C]. apply term_at; [exact Wt|auto|exact Y].
    + apply lgap_at; [exact LG|exact Lh].
Qed.

Lemma list_cons skip n lg l : Pn n -> Pl l -> Pl (DCons skip n lg l).
Proof.
  intros IHn IHl top rest c W Lr R C.
  inversion W as [|x1 x2 x3 x4 x5 Sk Wn LG L]; subst. cbn [render_list].
  inversion C as [|y1 y2 y3 c1 cl Cn Cl|g y2 y3 y4 cl Cl]; subst.
  - destruct (node_and_space top n lg l rest c1 IHn Wn LG L Lr R Cn)
      as [s [sp [Q [S1 [S0 [S2 S3]]]]]].
    cbn [app]. rewrite app_assoc, <- Q, <- app_assoc, !plain_app.
    rewrite <- (uspan (plain s)).
    apply NL_node.
    + pc. exact S1.
    + pc. exact S2.
    + unfold lspaces. pc. exact S3.
    + apply (IHl top); assumption.
  - destruct (proj1 content_ex n) as [c1 Cn].
    destruct (node_and_space top n lg l rest c1 IHn Wn LG L Lr R Cn)
      as [s [sp [Q [S1 [S0 [S2 S3]]]]]].
    rewrite (app_assoc (render_node n)), <- Q, <- (app_assoc s).
    rewrite (plain_app (str "/-" ++ render_gap g)), !plain_app.
    rewrite <- (plain_app (str "/-")).
    apply NL_skipped with (n := c1).
    + pc. apply slashdash_render; [apply Sk, eq_refl|].
      destruct (node_start_text _ _ Wn) as [c0 [u [Q' [Z _]]]].
      destruct s as [|d s]; [destruct (S0 eq_refl)|].
      rewrite Q' in Q. cbn in Q. injection Q as -> _. exact Z.
    + pc. exact S2.
    + unfold lspaces. pc. exact S3.
    + apply (IHl top); assumption.
Qed.

Lemma render_all : (forall n, Pn n) /\ (forall ch, Pc ch) /\ (forall l, Pl l).
Proof.
  apply d_mut.
  - intros. apply node_render. assumption.
  - intros rest c W C. inversion C; subst. constructor.
  - intros. apply children_some. assumption.
  - intros. apply children_skipped. assumption.
  - intros top rest c W _ _ C. inversion C; subst. constructor.
  - intros. apply list_cons; assumption.
Qed.

Theorem render_means d D : wf d -> content d D -> means true (render d) D.
Proof.
  destruct d as [lg l]. intros [LG L] C. unfold means, document_at, render. cbn [fst snd] in *.
  rewrite plain_app. apply Nodes.
  - unfold lspaces. rewrite app_nil_r. pc. apply lgap_at; [exact LG|].
    rewrite <- (app_nil_r (render_list l)). eapply list_hd; [exact L|discriminate].
  - apply (proj2 (proj2 render_all) l true [] D); [exact L|reflexivity|discriminate|exact C].
Qed.

Theorem render_parse_span d D : wf d -> content d D ->
  exists a, parse_ast_span (render d) = Parsed a /\ without_spans a = D.
Proof. intros W C. apply parse_span_complete, render_means; assumption. Qed.
