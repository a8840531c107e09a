(** Texts of the grammar put together. *)

From Coq Require Import NArith PeanoNat List Bool String Lia.
From Verif Require Import Chars Ast Chumsky Spans Grammar Kdl KdlText KdlChars Good Items Nodes LayoutMeans Meaning.
Import ListNotations.
Local Open Scope list_scope.
Local Existing Instance unit_env.

Notation toks := (Chumsky.toks unit).

Section Concat.
Variable strict : bool.

(** ** More text behind a text that does not end the whole *)

Lemma hd_more (r z : text) : r <> [] -> hd_error (r ++ z) = hd_error r.
Proof. destruct r; [contradiction|reflexivity]. Qed.

Lemma newline_more s r z : r <> [] -> newline_at s r -> newline_at s (r ++ z).
Proof. intros N H. destruct H; constructor; auto. rewrite hd_more; assumption. Qed.

Lemma comment_more s r z : r <> [] -> line_comment_at s r -> line_comment_at s (r ++ z).
Proof. intros N H. destruct H; [|contradiction]. constructor; [assumption|]. apply newline_more; assumption. Qed.

Lemma app_ne_r (a b : text) : b <> [] -> a ++ b <> [].
Proof. destruct a; [auto|discriminate]. Qed.

Lemma many_more (R : text -> text -> Prop) s r z : (forall s' r', r' <> [] -> R s' r' -> R s' (r' ++ z)) ->
  r <> [] -> many R s r -> many R s (r ++ z).
Proof.
  intros H N M. induction M as [|s t r X _ IH]; constructor; [|auto].
  rewrite app_assoc. apply H; [apply app_ne_r, N|exact X].
Qed.

Lemma ws_any s r r' : ws_at strict s r -> ws_at strict s r'.
Proof. destruct 1; constructor; assumption. Qed.

Lemma many_any (R : text -> text -> Prop) s r r' : (forall s' a b, R s' a -> R s' b) -> many R s r -> many R s r'.
Proof. intros H M. induction M as [|s t r X _ IH]; constructor; [eapply H, X|exact IH]. Qed.

Lemma nspace_more s r z : r <> [] -> nspace_at strict s r -> nspace_at strict s (r ++ z).
Proof.
  intros N H. destruct H as [s r H|s t r M H|s t r M H].
  - apply NS_ws. eapply ws_any, H.
  - apply NS_esc_comment; [eapply many_any, M; apply ws_any|]. apply comment_more; assumption.
  - apply NS_esc_newline; [eapply many_any, M; apply ws_any|]. apply newline_more; assumption.
Qed.

Lemma lspace_more s r z : r <> [] -> lspace_at strict s r -> lspace_at strict s (r ++ z).
Proof.
  intros N H. destruct H as [s r H|s r H|s r H].
  - apply LS_newline, newline_more; assumption.
  - apply LS_ws. eapply ws_any, H.
  - apply LS_comment, comment_more; assumption.
Qed.

Lemma chars_ne (r : toks) : r <> [] -> chars r <> [].
Proof. destruct r; [contradiction|discriminate]. Qed.

Lemma chars_app (a b : toks) : chars (a ++ b) = chars a ++ chars b.
Proof. apply map_app. Qed.

Lemma nspaces_more s (r z : toks) : r <> [] -> nspaces strict s r -> nspaces strict s (r ++ z).
Proof.
  intros N H. unfold nspaces in *. rewrite chars_app. apply many_more; [|apply chars_ne, N|exact H].
  intros. apply nspace_more; assumption.
Qed.

Lemma lspaces_more s (r z : toks) : r <> [] -> lspaces strict s r -> lspaces strict s (r ++ z).
Proof.
  intros N H. unfold lspaces in *. rewrite chars_app. apply many_more; [|apply chars_ne, N|exact H].
  intros. apply lspace_more; assumption.
Qed.

Lemma not_ws_more (r z : toks) : r <> [] -> not_ws (chars r) -> not_ws (chars (r ++ z)).
Proof. intros N H. destruct r as [|x r]; [contradiction|exact H]. Qed.

Lemma slashdash_more s (r z : toks) : r <> [] -> slashdash_at strict s r -> slashdash_at strict s (r ++ z).
Proof.
  intros N H. destruct H. constructor; [assumption|assumption|apply nspaces_more; assumption|apply not_ws_more; assumption].
Qed.

(** ** The parts of a node *)

Lemma term_more s (r z : text) : r <> [] -> terminator_at s r -> terminator_at s (r ++ z).
Proof.
  intros N H. destruct H as [s r H|s r H|r|].
  - apply Term_newline, newline_more; assumption.
  - apply Term_comment, comment_more; assumption.
  - apply Term_semicolon.
  - contradiction.
Qed.

Definition lf : tok unit := (0x0A%N, tt).

(** What may be put behind [r]: anything if there is something, else a text that
    starts with a line feed. *)
Definition behind (r z : toks) : Prop := r = [] -> exists w, z = lf :: w.

Lemma ident_more s (r z : toks) t : behind r z -> ident_at s (chars r) t -> ident_at s (chars (r ++ z)) t.
Proof.
  intros B H. inversion H as [? ? W X|? ? ? X]; subst; [|apply ID_escaped, X].
  apply ID_bare; [exact W|]. destruct r as [|c r]; [|exact X]. destruct (B eq_refl) as (w & ->).
  cbn. assert (~ ident_char 0x0A%N) as N by (intros (Y & _); discriminate Y).
  split; intros _ Y; [|exact (N Y)]. destruct Y as [[Y|Y] _]; [discriminate Y|exact (N Y)].
Qed.

Lemma value_ne (s : toks) v : value_at s v -> s <> [].
Proof.
  intros H. destruct H as [s l H|st s ty l H K].
  - apply ne_chars. eapply literal_ne, H.
  - intros X. apply app_eq_nil in X. destruct X as [_ ->]. exact (literal_ne _ _ K eq_refl).
Qed.

Lemma plain_item_ne (s : toks) i : plain_item_at s i -> s <> [].
Proof. intros H. destruct H as [s v H|sk e s k v _ _ _]; [eapply value_ne, H|]. destruct sk; discriminate. Qed.

Lemma item_ne (s r : toks) i : item_at strict s r i -> s <> [].
Proof.
  intros H. destruct H as [s r i H|d s r i _ H]; [eapply plain_item_ne, H|].
  apply plain_item_ne in H. intros X. apply app_eq_nil in X. apply H, X.
Qed.

Lemma ne_app_l {A} (a b : list A) : a <> [] -> a ++ b <> [].
Proof. destruct a; [contradiction|discriminate]. Qed.
Lemma ne_app_r {A} (a b : list A) : b <> [] -> a ++ b <> [].
Proof. destruct a; [auto|discriminate]. Qed.

Lemma item_more (s r z : toks) i : item_at strict s r i -> item_at strict s (r ++ z) i.
Proof.
  intros H. destruct H as [s r i H|d s r i D H]; [apply Item_plain, H|].
  eapply Item_skipped; [|exact H]. rewrite app_assoc. apply slashdash_more; [|exact D].
  apply ne_app_l. eapply plain_item_ne, H.
Qed.

Lemma items_more (s r z : toks) l : items_at strict s r l -> items_at strict s (r ++ z) l.
Proof.
  induction 1 as [r|sp s t r i l N S W I _ IH]; [constructor|].
  assert (s ++ t ++ r <> []) as X by (apply ne_app_l; eapply item_ne, I).
  assert (s ++ t ++ r ++ z = (s ++ t ++ r) ++ z) as Y by (rewrite <- !app_assoc; reflexivity).
  constructor; [exact N| | | |exact IH].
  - rewrite Y. apply nspaces_more; assumption.
  - rewrite Y. apply not_ws_more; assumption.
  - rewrite app_assoc. apply item_more, I.
Qed.

Scheme node_mut := Minimality for node_at Sort Prop
  with children_mut := Minimality for children_at Sort Prop
  with braces_mut := Minimality for braces_at Sort Prop
  with nodes_mut := Minimality for nodes_at Sort Prop
  with list_mut := Minimality for node_list_at Sort Prop.
Combined Scheme nodes_all from node_mut, children_mut, braces_mut, nodes_mut, list_mut.

Lemma node_ne (s r : toks) n : node_at strict s r n -> s <> [].
Proof.
  intros H. destruct H as [st sn si sc ss sm r ty nm l ps ch _ H _ _ _ _ _]. apply ident_ne in H.
  apply ne_app_r, ne_app_l, ne_chars, H.
Qed.

Lemma braces_ne (s r : toks) l : braces_at strict s r l -> s <> [].
Proof. intros H. destruct H. discriminate. Qed.

(** More text behind changes nothing. *)
Lemma more_all (z : toks) :
  (forall s r n, node_at strict s r n -> r <> [] -> node_at strict s (r ++ z) n)
  /\ (forall s r c, children_at strict s r c -> children_at strict s (r ++ z) c)
  /\ (forall s r l, braces_at strict s r l -> braces_at strict s (r ++ z) l)
  /\ (forall s r l, nodes_at strict s r l -> r <> [] -> nodes_at strict s (r ++ z) l)
  /\ (forall s r l, node_list_at strict s r l -> r <> [] -> node_list_at strict s (r ++ z) l).
Proof.
  apply (@nodes_all unit unit_env strict
    (fun s r n => r <> [] -> node_at strict s (r ++ z) n)
    (fun s r c => children_at strict s (r ++ z) c)
    (fun s r l => braces_at strict s (r ++ z) l)
    (fun s r l => r <> [] -> nodes_at strict s (r ++ z) l)
    (fun s r l => r <> [] -> node_list_at strict s (r ++ z) l)).
  - intros st sn si sc ss sm r ty nm l ps ch T I It _ Ch S Te P N.
    apply Node_.
    + exact T.
    + rewrite !app_assoc. apply ident_more; [|rewrite <- !app_assoc; exact I].
      intros X. apply app_eq_nil in X. destruct X as [_ X]. contradiction.
    + rewrite !app_assoc. apply items_more. rewrite <- !app_assoc. exact It.
    + rewrite !app_assoc. rewrite <- app_assoc in Ch. rewrite <- app_assoc in Ch.
      rewrite <- !app_assoc. exact Ch.
    + rewrite app_assoc. apply nspaces_more; [apply ne_app_r, N|exact S].
    + rewrite chars_app. apply term_more; [apply chars_ne, N|exact Te].
    + exact P.
  - intros r. constructor.
  - intros sp b r l S B H. constructor; [|exact H]. rewrite app_assoc. apply nspaces_more; [|exact S].
    apply ne_app_l. eapply braces_ne, B.
  - intros sp d b r l S D B H. eapply Ch_skipped; [| |exact H].
    + rewrite !app_assoc. rewrite app_assoc in S. apply nspaces_more; [|exact S].
      rewrite <- app_assoc. apply ne_app_r, ne_app_l. eapply braces_ne, B.
    + rewrite app_assoc. apply slashdash_more; [|exact D]. apply ne_app_l. eapply braces_ne, B.
  - intros o s c r l O C _ H. constructor; [exact O|exact C|]. apply H. discriminate.
  - intros sp s r l S _ H N. constructor; [|exact (H N)].
    rewrite app_assoc. apply lspaces_more; [apply ne_app_r, N|exact S].
  - intros r N. constructor.
  - intros s sp t r n l W _ H S _ K N. constructor; [exact W| | |exact (K N)].
    + rewrite !app_assoc. rewrite <- (app_assoc sp t r). apply H. apply ne_app_r, ne_app_r, N.
    + rewrite app_assoc. apply lspaces_more; [apply ne_app_r, N|exact S].
  - intros d s sp t r n l D _ H S _ K N. econstructor; [| | |exact (K N)].
    + rewrite !app_assoc. rewrite !app_assoc in D. apply slashdash_more; [apply ne_app_r, N|exact D].
    + rewrite !app_assoc. rewrite <- (app_assoc sp t r). apply H. apply ne_app_r, ne_app_r, N.
    + rewrite app_assoc. apply lspaces_more; [apply ne_app_r, N|exact S].
Qed.

Definition node_more z := proj1 (more_all z).
Definition children_more z := proj1 (proj2 (more_all z)).

(** ** Line feeds behind the end *)

Definition LF : char := 0x0A%N.

Lemma lf_newline w : newline_at [LF] w.
Proof. apply NL_one; [right; left; reflexivity|discriminate]. Qed.

Lemma newline_end s w : newline_at s [] -> newline_at s (LF :: w) \/ newline_at (s ++ [LF]) w.
Proof.
  intros H. inversion H; subst.
  - left. apply NL_crlf.
  - right. apply NL_crlf.
  - left. apply NL_one; assumption.
Qed.

Lemma comment_end s w : line_comment_at s [] -> line_comment_at s (LF :: w) \/ line_comment_at (s ++ [LF]) w.
Proof.
  intros H. inversion H as [b nl r B N X Y|b B X Y]; subst.
  - destruct (newline_end _ w N) as [K|K]; [left; constructor; assumption|right].
    rewrite <- !app_assoc. constructor; assumption.
  - right. rewrite <- app_assoc. constructor; [exact B|apply lf_newline].
Qed.

Lemma nspace_end s w : nspace_at strict s [] -> nspace_at strict s (LF :: w) \/ nspace_at strict (s ++ [LF]) w.
Proof.
  intros H. inversion H as [s' r K|s' t r M K|s' t r M K]; subst.
  - left. apply NS_ws. eapply ws_any, K.
  - destruct (comment_end _ w K) as [X|X]; [left|right; rewrite app_comm_cons, <- app_assoc];
      (apply NS_esc_comment; [eapply many_any, M; apply ws_any|exact X]).
  - destruct (newline_end _ w K) as [X|X]; [left|right; rewrite app_comm_cons, <- app_assoc];
      (apply NS_esc_newline; [eapply many_any, M; apply ws_any|exact X]).
Qed.

Lemma lspace_end s w : lspace_at strict s [] -> lspace_at strict s (LF :: w) \/ lspace_at strict (s ++ [LF]) w.
Proof.
  intros H. inversion H as [s' r K|s' r K|s' r K]; subst.
  - destruct (newline_end _ w K); [left|right]; apply LS_newline; assumption.
  - left. apply LS_ws. eapply ws_any, K.
  - destruct (comment_end _ w K); [left|right]; apply LS_comment; assumption.
Qed.

Lemma many_end (R : text -> text -> Prop) s w : (forall s' r' z, r' <> [] -> R s' r' -> R s' (r' ++ z)) ->
  (forall s' w', R s' [] -> R s' (LF :: w') \/ R (s' ++ [LF]) w') ->
  many R s [] -> many R s (LF :: w) \/ many R (s ++ [LF]) w.
Proof.
  intros H K M. remember [] as r eqn:E. induction M as [r|s t r X M IH]; subst r; [left; constructor|].
  specialize (IH eq_refl H K). rewrite app_nil_r in X. destruct t as [|c t].
  - rewrite !app_nil_r. destruct (K _ w X) as [Y|Y]; [left|right].
    + rewrite <- (app_nil_r s). constructor; [exact Y|constructor].
    + rewrite <- (app_nil_r (s ++ [LF])). constructor; [exact Y|constructor].
  - assert (R s ((c :: t) ++ LF :: w)) as Y by (apply H; [discriminate|exact X]).
    destruct IH as [Z|Z]; [left; constructor; assumption|right].
    rewrite <- app_assoc. constructor; [|exact Z]. rewrite <- app_assoc. exact Y.
Qed.

Lemma term_end s w : s <> [] -> terminator_at s [] -> terminator_at s (LF :: w) \/ terminator_at (s ++ [LF]) w.
Proof.
  intros N H. inversion H as [s' r K|s' r K|r|]; subst; [| |left; apply Term_semicolon|contradiction].
  - destruct (newline_end _ w K); [left|right]; apply Term_newline; assumption.
  - destruct (comment_end _ w K); [left|right]; apply Term_comment; assumption.
Qed.

(** The number of line feeds a node takes from those behind it. *)
Definition lfs (n : nat) : toks := repeat lf n.

Lemma chars_lfs n : chars (lfs n) = repeat LF n.
Proof. unfold chars, lfs. induction n as [|n IH]; [reflexivity|]. cbn [repeat map fst lf]. f_equal. exact IH. Qed.

Lemma nspaces_end s w : nspaces strict s [] -> exists k, k <= 1 /\ nspaces strict (s ++ lfs k) (lfs (1 - k) ++ w).
Proof.
  intros H. unfold nspaces in *. cbn [chars map] in H.
  destruct (many_end _ _ (chars w) nspace_more nspace_end H) as [X|X].
  - exists 0. split; [lia|]. rewrite app_nil_r. exact X.
  - exists 1. split; [lia|]. rewrite chars_app. exact X.
Qed.

Lemma lspaces_end s w : lspaces strict s [] -> exists k, k <= 1 /\ lspaces strict (s ++ lfs k) (lfs (1 - k) ++ w).
Proof.
  intros H. unfold lspaces in *. cbn [chars map] in H.
  destruct (many_end _ _ (chars w) lspace_more lspace_end H) as [X|X].
  - exists 0. split; [lia|]. rewrite app_nil_r. exact X.
  - exists 1. split; [lia|]. rewrite chars_app. exact X.
Qed.

Lemma node_end s n w : node_at strict s [] n ->
  exists k, k <= 2 /\ node_at strict (s ++ lfs k) (lfs (2 - k) ++ w) n.
Proof.
  intros H. inversion H as [st sn si sc ss sm r ty nm l ps ch T I It Ch S Te P]. subst.
  assert (forall ss' sm' rest', ss' ++ sm' ++ rest' = ss ++ sm ++ lf :: lf :: w ->
    nspaces strict ss' (sm' ++ rest') -> terminator_at (chars sm') (chars rest') ->
    node_at strict (st ++ sn ++ si ++ sc ++ ss' ++ sm') rest' (Node ty (Spanned (span_of sn) nm) (arguments_of l) ps ch)) as B.
  { intros ss' sm' rest' E S' T'. rewrite app_nil_r in I, It, Ch. apply Node_; [exact T| | | |exact S'|exact T'|exact P].
    - rewrite E. replace (si ++ sc ++ ss ++ sm ++ lf :: lf :: w) with ((si ++ sc ++ ss ++ sm) ++ lf :: lf :: w)
        by (rewrite <- !app_assoc; reflexivity).
      apply ident_more; [|exact I]. intros _. exists (lf :: w). reflexivity.
    - rewrite E. replace (sc ++ ss ++ sm ++ lf :: lf :: w) with ((sc ++ ss ++ sm) ++ lf :: lf :: w)
        by (rewrite <- !app_assoc; reflexivity).
      apply items_more, It.
    - rewrite E. rewrite app_assoc. apply children_more, Ch. }
  destruct sm as [|x sm].
  - rewrite !app_nil_r in *. cbn [app] in B.
    destruct (nspaces_end ss (lf :: w) S) as (k & K & X). destruct k as [|[|k]]; [| |lia].
    + exists 1. split; [lia|]. rewrite app_nil_r in X. rewrite <- !app_assoc. apply B; [reflexivity|exact X|].
      apply Term_newline, lf_newline.
    + exists 2. split; [lia|]. rewrite <- !app_assoc.
      replace (ss ++ lfs 2) with ((ss ++ lfs 1) ++ [lf]) by (rewrite <- app_assoc; reflexivity).
      apply B; [rewrite <- app_assoc; reflexivity|exact X|]. apply Term_newline, lf_newline.
  - assert (chars (x :: sm) <> []) as N by discriminate.
    destruct (term_end _ (LF :: chars w) N Te) as [X|X].
    + exists 0. split; [lia|]. cbn [lfs repeat]. rewrite app_nil_r. apply B; [reflexivity| |exact X].
      rewrite app_nil_r in S. apply nspaces_more; [discriminate|exact S].
    + exists 1. split; [lia|]. rewrite <- !app_assoc.
      apply (B ss ((x :: sm) ++ [lf]) (lf :: w)).
      * rewrite <- app_assoc. reflexivity.
      * rewrite app_nil_r in S. rewrite <- app_assoc. apply nspaces_more; [discriminate|exact S].
      * rewrite chars_app. exact X.
Qed.

(** ** Nodes one after the other *)

Lemma lspaces_app (a b r : toks) : lspaces strict a (b ++ r) -> lspaces strict b r -> lspaces strict (a ++ b) r.
Proof.
  unfold lspaces. rewrite !chars_app. generalize (chars a), (chars b), (chars r). clear a b r. intros a b r H K.
  remember (b ++ r) as x eqn:E. induction H as [x|s t x X H IH]; subst x; [exact K|].
  rewrite <- app_assoc. constructor; [rewrite <- app_assoc; exact X|]. exact (IH eq_refl).
Qed.

Lemma lfs_spaces k (r : toks) : lspaces strict (lfs k) r.
Proof.
  unfold lspaces. rewrite chars_lfs. generalize (chars r). clear r. intros r.
  induction k as [|k IH]; [constructor|]. cbn [repeat]. apply (Many_cons _ [LF]); [|exact IH].
  apply LS_newline, lf_newline.
Qed.

Lemma lfs_split k n : k <= n -> lfs n = lfs k ++ lfs (n - k).
Proof. intros L. unfold lfs. rewrite <- repeat_app. f_equal. lia. Qed.

Lemma span_of_any (s s' : toks) : span_of s = span_of s'.
Proof. destruct (span_of s), (span_of s'). reflexivity. Qed.

Lemma not_ws_ne (s z : toks) : s <> [] -> not_ws (chars s) -> not_ws (chars (s ++ z)).
Proof. apply not_ws_more. Qed.

Lemma list_nil (r : toks) l : node_list_at strict [] r l -> l = [].
Proof.
  intros H. inversion H as [|s sp t r' n l' W Hn S Hl X|d s sp t r' n l' D Hn S Hl X]; subst; [reflexivity| |].
  - apply app_eq_nil in X. destruct X as [X _]. apply node_ne in Hn. contradiction.
  - apply app_eq_nil in X. destruct X as [_ X]. apply app_eq_nil in X. destruct X as [X _]. apply node_ne in Hn. contradiction.
Qed.

Lemma tail_spaces sp (sp2 r : toks) : lspaces strict sp [] -> lspaces strict sp2 r -> lspaces strict (sp ++ lfs 2 ++ sp2) r.
Proof.
  intros S S2. destruct (lspaces_end sp (lf :: sp2 ++ r) S) as (k & K & X).
  assert (lfs 2 = lfs k ++ lfs (2 - k)) as E by (apply lfs_split; lia).
  rewrite E. replace (sp ++ (lfs k ++ lfs (2 - k)) ++ sp2) with ((sp ++ lfs k) ++ lfs (2 - k) ++ sp2)
    by (rewrite <- !app_assoc; reflexivity).
  apply lspaces_app.
  - replace ((lfs (2 - k) ++ sp2) ++ r) with (lfs (1 - k) ++ lf :: sp2 ++ r); [exact X|].
    destruct k as [|[|k]]; [| |lia]; reflexivity.
  - apply lspaces_app; [apply lfs_spaces|exact S2].
Qed.

Lemma list_step s sp t n l sp2 s2 r l2 : node_at strict s (sp ++ t) n -> lspaces strict sp t -> node_list_at strict t [] l ->
  (t <> [] -> node_list_at strict (t ++ lfs 2 ++ sp2 ++ s2) r (l ++ l2)) ->
  lspaces strict sp2 (s2 ++ r) -> node_list_at strict s2 r l2 ->
  exists z sp' t', (s ++ z) ++ sp' ++ t' = s ++ sp ++ t ++ lfs 2 ++ sp2 ++ s2
  /\ node_at strict (s ++ z) (sp' ++ t' ++ r) n /\ lspaces strict sp' (t' ++ r) /\ node_list_at strict t' r (l ++ l2).
Proof.
  intros Hn S Hl J S2 H2. destruct t as [|x t].
  - rewrite (list_nil _ _ Hl). rewrite app_nil_r in Hn. cbn [app]. destruct sp as [|y sp].
    + destruct (node_end s n (sp2 ++ s2 ++ r) Hn) as (k & K & X).
      exists (lfs k), (lfs (2 - k) ++ sp2), s2. repeat split.
      * cbn [app]. rewrite <- !app_assoc. f_equal. rewrite (lfs_split k 2 K). rewrite <- app_assoc. reflexivity.
      * rewrite <- app_assoc. exact X.
      * apply lspaces_app; [apply lfs_spaces|exact S2].
      * exact H2.
    + exists [], ((y :: sp) ++ lfs 2 ++ sp2), s2. rewrite app_nil_r. repeat split.
      * rewrite <- !app_assoc. reflexivity.
      * rewrite <- app_assoc. apply node_more; [exact Hn|discriminate].
      * apply tail_spaces; assumption.
      * exact H2.
  - exists [], sp, ((x :: t) ++ lfs 2 ++ sp2 ++ s2). rewrite app_nil_r. repeat split.
    + rewrite <- app_assoc, app_assoc. apply node_more; [exact Hn|]. apply ne_app_r. discriminate.
    + rewrite <- app_assoc. apply lspaces_more; [discriminate|exact S].
    + apply J. discriminate.
Qed.

Lemma list_join s1 e l1 : node_list_at strict s1 e l1 -> e = [] -> s1 <> [] -> forall sp2 s2 r l2, lspaces strict sp2 (s2 ++ r) ->
  node_list_at strict s2 r l2 -> node_list_at strict (s1 ++ lfs 2 ++ sp2 ++ s2) r (l1 ++ l2).
Proof.
  intros H. induction H as [e|s sp t e n l W Hn S Hl IH|d s sp t e n l D Hn S Hl IH]; intros E N sp2 s2 r l2 S2 H2; subst e.
  - contradiction.
  - rewrite app_nil_r in Hn, S. assert (Ns := node_ne _ _ _ Hn).
    destruct (list_step s sp t n l sp2 s2 r l2 Hn S Hl) as (z & sp' & t' & E & X1 & X2 & X3); [|exact S2|exact H2|].
    { intros Nt. apply IH; auto. }
    rewrite <- !app_assoc, <- E. cbn [app]. rewrite (span_of_any s (s ++ z)).
    apply NL_node; [apply not_ws_ne; assumption|exact X1|exact X2|exact X3].
  - rewrite app_nil_r in Hn, S, D. assert (Ns := node_ne _ _ _ Hn).
    destruct (list_step s sp t n l sp2 s2 r l2 Hn S Hl) as (z & sp' & t' & E & X1 & X2 & X3); [|exact S2|exact H2|].
    { intros Nt. apply IH; auto. }
    rewrite <- !app_assoc, <- E. eapply NL_skipped; [|exact X1|exact X2|exact X3].
    replace ((s ++ z) ++ sp' ++ t' ++ r) with ((s ++ sp ++ t) ++ lfs 2 ++ sp2 ++ s2 ++ r).
    + apply slashdash_more; [apply ne_app_l, Ns|exact D].
    + apply (f_equal (fun x => x ++ r)) in E. rewrite <- !app_assoc in E. rewrite <- !app_assoc. symmetry. exact E.
Qed.

Lemma nodes_join s1 l1 s2 r l2 : nodes_at strict s1 [] l1 -> nodes_at strict s2 r l2 ->
  nodes_at strict (s1 ++ lfs 2 ++ s2) r (l1 ++ l2).
Proof.
  intros H1 H2. destruct H2 as [sp2 s2 r l2 S2 H2]. remember [] as e eqn:E. destruct H1 as [sp1 s1 e l1 S1 H1]. subst e.
  rewrite app_nil_r in S1. destruct s1 as [|x s1].
  - rewrite (list_nil _ _ H1). rewrite app_nil_r. cbn [app].
    replace (sp1 ++ lfs 2 ++ sp2 ++ s2) with ((sp1 ++ lfs 2 ++ sp2) ++ s2) by (rewrite <- !app_assoc; reflexivity).
    apply Nodes; [|exact H2]. apply tail_spaces; assumption.
  - rewrite <- app_assoc. apply Nodes.
    + replace (((x :: s1) ++ lfs 2 ++ sp2 ++ s2) ++ r) with ((x :: s1) ++ (lfs 2 ++ sp2 ++ s2) ++ r)
        by (rewrite <- !app_assoc; reflexivity).
      apply lspaces_more; [discriminate|exact S1].
    + apply (list_join (x :: s1) [] l1 H1 eq_refl); [discriminate|exact S2|exact H2].
Qed.
End Concat.
