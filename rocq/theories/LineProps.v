(** Line and column numbers. *)

From Coq Require Import NArith PeanoNat List Bool String Lia ZifyBool.
From Verif Require Import Chars Ast Errors Chumsky Spans Grammar Kdl KdlChars LineSpec SpanProps.
Import ListNotations.
Local Open Scope list_scope.

Lemma newline_flag c : is_newline_char c = true <-> In c newline_chars.
Proof. unfold is_newline_char, newline_chars. cbn. lia. Qed.

Lemma newline_flag_not c : is_newline_char c = false <-> ~ In c newline_chars.
Proof.
  rewrite <- newline_flag. destruct (is_newline_char c); split; congruence.
Qed.

Definition ends_cr (p : text) : Prop := exists a, p = a ++ [0x0D%N].

Lemma newline_at_snoc nl t c : newline_at nl t ->
  (c = 0x0A%N -> t = [] -> nl <> [0x0D%N]) -> newline_at nl (t ++ [c]).
Proof.
  intros H K. inversion H as [r|r Hr|d r I Nd]; subst.
  - constructor.
  - constructor. destruct t as [|e t]; [|exact Hr]. cbn. intros Q. injection Q as ->.
    apply K; reflexivity.
  - apply NL_one; assumption.
Qed.

Lemma no_newline_cr b a : no_newline b -> b = a ++ [0x0D%N] -> False.
Proof.
  intros N ->. apply Forall_app in N. destruct N as [_ N]. inversion N as [|x y H]; subst.
  apply H. cbn. tauto.
Qed.

Lemma lines_other p l c : lines p l -> ~ In c newline_chars -> lines (p ++ [c]) l.
Proof.
  intros H N. induction H as [b B|b nl t n B Nl H IH].
  - constructor. apply Forall_app. split; [exact B|]. constructor; [exact N|constructor].
  - rewrite <- !app_assoc. constructor; [exact B| |exact IH].
    apply newline_at_snoc; [exact Nl|]. intros -> _. exfalso. apply N. cbn. tauto.
Qed.

Lemma lines_newline p l c : lines p l -> In c newline_chars -> ~ (c = 0x0A%N /\ ends_cr p) ->
  lines (p ++ [c]) (S l).
Proof.
  intros H I. induction H as [b B|b nl t n B Nl H IH]; intros K.
  - apply (Lines_more b [c] []); [exact B| |constructor; constructor].
    destruct (N.eq_dec c 0x0D) as [->|D]; [constructor; discriminate|]. constructor; assumption.
  - rewrite <- !app_assoc. constructor; [exact B| |].
    + apply newline_at_snoc; [exact Nl|]. intros -> -> ->. apply K. split; [reflexivity|].
      exists b. rewrite app_nil_r. reflexivity.
    + apply IH. intros [-> [a ->]]. apply K. split; [reflexivity|]. exists (b ++ nl ++ a).
      rewrite <- !app_assoc. reflexivity.
Qed.

Lemma lines_crlf p l : lines p l -> ends_cr p -> lines (p ++ [0x0A%N]) l.
Proof.
  intros H. induction H as [b B|b nl t n B Nl H IH]; intros [a A].
  - exfalso. eapply no_newline_cr; eassumption.
  - destruct t as [|e t].
    + assert (n = 0 /\ nl = [0x0D%N]) as [-> ->].
      { split.
        - inversion H as [|b' nl' t' n' B' Nl' H' Q]; [reflexivity|]. exfalso.
          destruct b'; [|discriminate]. cbn in Q. inversion Nl'; subst; discriminate.
        - rewrite app_nil_r in A. inversion Nl as [r|r Hr|d r I Nd]; subst.
          + change [0x0D%N; 0x0A%N] with ([0x0D%N] ++ [0x0A%N]) in A. rewrite app_assoc in A.
            apply app_inj_tail in A. destruct A as [_ A]. discriminate.
          + reflexivity.
          + apply app_inj_tail in A. destruct A as [_ A]. congruence. }
      rewrite app_nil_r, <- app_assoc.
      apply (Lines_more b [0x0D%N; 0x0A%N] [] 0); [exact B|constructor|]. constructor. constructor.
    + rewrite <- !app_assoc. constructor; [exact B| |].
      * apply newline_at_snoc; [exact Nl|]. discriminate.
      * apply IH. destruct (exists_last (l := e :: t)) as [u [z Z]]; [discriminate|].
        rewrite Z in A. rewrite !app_assoc in A. apply app_inj_tail in A. destruct A as [_ ->].
        exists u. exact Z.
Qed.

Lemma last_line_other p b c : last_line p b -> ~ In c newline_chars -> last_line (p ++ [c]) (b ++ [c]).
Proof.
  intros [B [a [-> A]]] N. split.
  - apply Forall_app. split; [exact B|]. constructor; [exact N|constructor].
  - exists a. rewrite app_assoc. auto.
Qed.

Lemma last_line_newline p c : In c newline_chars -> last_line (p ++ [c]) [].
Proof.
  intros I. split; [constructor|]. exists (p ++ [c]). rewrite app_nil_r. split; [reflexivity|].
  right. eauto.
Qed.

Lemma newline_head nl t : newline_at nl t -> exists c r, nl = c :: r /\ In c newline_chars.
Proof.
  intros H. inversion H; subst; eexists; eexists; (split; [reflexivity|]); [cbn; tauto..|assumption].
Qed.

Lemma newline_split nl : forall t nl' t', newline_at nl t -> newline_at nl' t' ->
  nl ++ t = nl' ++ t' -> nl = nl' /\ t = t'.
Proof.
  intros t nl' t' H H' E.
  inversion H as [r|r Hr|d r I Nd]; inversion H' as [r'|r' Hr'|d' r' I' Nd']; subst;
    cbn in E; injection E as E; subst; auto; try congruence; cbn in *; exfalso; auto.
Qed.

Lemma lines_unique p : forall n m, lines p n -> lines p m -> n = m.
Proof.
  intros n m H. revert m. induction H as [b B|b nl t n B Nl H IH]; intros m H'.
  - inversion H' as [|b' nl' t' n' B' Nl' H'' Q]; [reflexivity|]. exfalso. subst.
    destruct (newline_head _ _ Nl') as [c [r [-> I]]].
    apply Forall_app in B. destruct B as [_ B]. inversion B; subst. contradiction.
  - inversion H' as [b' B' Q|b' nl' t' n' B' Nl' H'' Q].
    + exfalso. subst b'. destruct (newline_head _ _ Nl) as [c [r [-> I]]].
      apply Forall_app in B'. destruct B' as [_ B']. inversion B'; subst. contradiction.
    + assert (b = b' /\ nl ++ t = nl' ++ t') as [<- E].
      { clear - B B' Nl Nl' Q. revert b' B' Q. induction b as [|c b IH]; intros [|c' b'] B' Q.
        - auto.
        - exfalso. destruct (newline_head _ _ Nl) as [d [r [-> I]]]. cbn in Q. injection Q as <- _.
          inversion B'; subst. contradiction.
        - exfalso. destruct (newline_head _ _ Nl') as [d [r [-> I]]]. cbn in Q. injection Q as <- _.
          inversion B; subst. contradiction.
        - cbn in Q. injection Q as <- Q. inversion B; inversion B'; subst.
          destruct (IH ltac:(assumption) b' ltac:(assumption) Q) as [-> ->]. auto. }
      destruct (newline_split _ _ _ _ Nl Nl' E) as [<- <-]. f_equal. auto.
Qed.

Lemma last_line_unique p b b' : last_line p b -> last_line p b' -> b = b'.
Proof.
  intros [B [a [E A]]] [B' [a' [E' A']]]. subst p.
  destruct (app_eq_app _ _ _ _ E') as [l [[-> ->]|[-> ->]]].
  - destruct A as [A0|[x [c [A0 I]]]].
    + apply app_eq_nil in A0. destruct A0 as [_ ->]. reflexivity.
    + destruct l as [|e l _] using rev_ind; [reflexivity|]. exfalso.
      rewrite app_assoc in A0. apply app_inj_tail in A0. destruct A0 as [_ ->].
      apply Forall_app in B'. destruct B' as [B' _]. apply Forall_app in B'. destruct B' as [_ B'].
      inversion B'; subst. contradiction.
  - destruct A' as [A0|[x [c [A0 I]]]].
    + apply app_eq_nil in A0. destruct A0 as [_ ->]. reflexivity.
    + destruct l as [|e l _] using rev_ind; [reflexivity|]. exfalso.
      rewrite app_assoc in A0. apply app_inj_tail in A0. destruct A0 as [_ ->].
      apply Forall_app in B. destruct B as [B _]. apply Forall_app in B. destruct B as [_ B].
      inversion B; subst. contradiction.
Qed.

Section Width.
Variable width : char -> option nat.

Lemma column_snoc b c : column width (b ++ [c]) =
  column width b + (if N.eqb c 0x09 then 8 else width0 width c).
Proof.
  induction b as [|d b IH]; cbn [app column fold_right].
  - unfold width0. lia.
  - fold (column width (b ++ [c])) (column width b). rewrite IH. lia.
Qed.

(** The tracker after the text [p]. *)
Definition tracks (tr : line_tracker) (p : text) : Prop :=
  lt_offset tr = byte_len p /\ (lt_cr tr = true <-> ends_cr p)
  /\ lines p (lt_line tr)
  /\ exists b, last_line p b /\ lt_column tr = column width b.

Lemma ends_cr_snoc p c : ends_cr (p ++ [c]) <-> c = 0x0D%N.
Proof.
  split.
  - intros [a A]. apply app_inj_tail in A. apply A.
  - intros ->. exists p. reflexivity.
Qed.

Lemma track_start : tracks (LineTracker 0 false 0 0) [].
Proof.
  split; [reflexivity|]. split; [|split].
  - split; [discriminate|]. intros [a A]. destruct a; discriminate.
  - constructor. constructor.
  - exists []. split; [|reflexivity]. split; [constructor|]. exists []. auto.
Qed.

Lemma track_step tr p c sp tr' : tracks tr p -> line_next_span width tr c = (sp, tr') ->
  sp = LineSpan (LinePos (lt_offset tr) (lt_line tr) (lt_column tr))
                (LinePos (lt_offset tr') (lt_line tr') (lt_column tr'))
  /\ tracks tr' (p ++ [c]).
Proof.
  intros [O [C [L [b [B W]]]]] H. unfold line_next_span in H.
  assert (lt_offset tr + utf8_len c = byte_len (p ++ [c])) as Of.
  { rewrite byte_len_app, O. cbn. lia. }
  assert ((c =? 0x0D)%N = true <-> ends_cr (p ++ [c])) as Cr by (rewrite ends_cr_snoc; lia).
  destruct ((c =? 0x0A)%N && lt_cr tr) eqn:X.
  - injection H as <- <-. cbn [lt_offset lt_line lt_column lt_cr]. split; [reflexivity|].
    apply andb_prop in X. destruct X as [X1 X2]. apply N.eqb_eq in X1. subst c.
    apply C in X2. split; [exact Of|]. split; [exact Cr|]. split; [apply lines_crlf; assumption|].
    exists []. split; [apply last_line_newline; cbn; tauto|].
    rewrite W. destruct B as [B [a [-> A]]]. destruct X2 as [a' X2].
    destruct b as [|e b]; [reflexivity|]. exfalso.
    destruct (exists_last (l := e :: b)) as [u [z Z]]; [discriminate|]. rewrite Z in *.
    rewrite app_assoc in X2. apply app_inj_tail in X2. destruct X2 as [_ ->].
    eapply no_newline_cr; [exact B|reflexivity].
  - destruct (is_newline_char c) eqn:Nc.
    + apply newline_flag in Nc.
      injection H as <- <-. cbn [lt_offset lt_line lt_column lt_cr]. split; [reflexivity|].
      split; [exact Of|]. split; [exact Cr|]. split.
      * apply lines_newline; auto. intros [-> X2]. apply C in X2. rewrite X2 in X. discriminate.
      * exists []. split; [apply last_line_newline; assumption|reflexivity].
    + apply newline_flag_not in Nc.
      destruct (c =? 0x09)%N eqn:T; injection H as <- <-;
        cbn [lt_offset lt_line lt_column lt_cr]; (split; [reflexivity|]);
        (split; [exact Of|]); (split; [exact Cr|]); (split; [apply lines_other; assumption|]);
        exists (b ++ [c]); (split; [apply last_line_other; assumption|]);
        rewrite column_snoc, T, W; reflexivity.
Qed.

(** The span of the character after [p]. *)
Lemma track_tokens q : forall tr p c r, tracks tr p -> forall u, q = u ++ c :: r ->
  exists sp tr1 tr2, nth_error (line_tokens width tr q) (List.length u) = Some (c, sp)
    /\ sp = LineSpan (LinePos (lt_offset tr1) (lt_line tr1) (lt_column tr1))
                     (LinePos (lt_offset tr2) (lt_line tr2) (lt_column tr2))
    /\ tracks tr1 (p ++ u) /\ tracks tr2 (p ++ u ++ [c]).
Proof.
  induction q as [|d q IH]; intros tr p c r T u Q; [destruct u; discriminate|].
  cbn [line_tokens]. destruct (line_next_span width tr d) as [sp tr'] eqn:N.
  destruct (track_step tr p d sp tr' T N) as [S T'].
  destruct u as [|e u].
  - injection Q as -> ->. exists sp, tr, tr'. rewrite app_nil_r. auto.
  - injection Q as -> ->. destruct (IH tr' (p ++ [e]) c r T' u eq_refl)
      as [sp' [tr1 [tr2 [H [X [T1 T2]]]]]]. exists sp', tr1, tr2. rewrite <- !app_assoc in T1, T2.
    auto.
Qed.

Theorem line_positions p c r :
  exists l1 b1 l2 b2,
    nth_error (fst (linespan_stream width (p ++ c :: r))) (List.length p)
    = Some (c, LineSpan (LinePos (byte_len p) l1 (column width b1))
                        (LinePos (byte_len (p ++ [c])) l2 (column width b2)))
    /\ lines p l1 /\ last_line p b1 /\ lines (p ++ [c]) l2 /\ last_line (p ++ [c]) b2.
Proof.
  destruct (track_tokens (p ++ c :: r) _ [] c r track_start p eq_refl)
    as [sp [tr1 [tr2 [H [-> [[O1 [_ [L1 [b1 [B1 W1]]]]] [O2 [_ [L2 [b2 [B2 W2]]]]]]]]]]].
  cbn [app] in *.
  exists (lt_line tr1), b1, (lt_line tr2), b2. rewrite <- O1, <- O2, <- W1, <- W2. auto.
Qed.

Fixpoint track (tr : line_tracker) (t : text) : line_tracker :=
  match t with
  | [] => tr
  | c :: t => track (snd (line_next_span width tr c)) t
  end.

Lemma track_all t : forall tr p, tracks tr p -> tracks (track tr t) (p ++ t).
Proof.
  induction t as [|c t IH]; intros tr p T; cbn [track].
  - rewrite app_nil_r. exact T.
  - destruct (line_next_span width tr c) as [sp tr'] eqn:N.
    destruct (track_step tr p c sp tr' T N) as [_ T']. cbn [snd].
    specialize (IH tr' (p ++ [c]) T'). rewrite <- app_assoc in IH. exact IH.
Qed.

Lemma lines_ex p : exists l b, lines p l /\ last_line p b.
Proof.
  pose proof (track_all p _ [] track_start) as [_ [_ [L [b [B _]]]]]. eauto.
Qed.

(** ** End of input *)

Lemma str_width_app a b : str_width width (a ++ b) = str_width width a + str_width width b.
Proof. induction a as [|c a IH]; cbn; [reflexivity|]. rewrite IH. lia. Qed.

(** The scanner's last line, up to a leading LF, is the last line. *)
Lemma eoi_scan_line t : forall cr line last p b k,
  (cr = true <-> ends_cr p) -> lines p line -> last_line p b ->
  (k = [] \/ k = [0x0A%N] /\ ~ ends_cr p) -> last = k ++ b ++ t ->
  exists line' b' k', eoi_scan cr line last t = (line', k' ++ b')
    /\ lines (p ++ t) line' /\ last_line (p ++ t) b' /\ (k' = [] \/ k' = [0x0A%N]).
Proof.
  induction t as [|c t IH]; intros cr line last p b k C L B K E.
  - cbn [eoi_scan]. exists line, b, k. rewrite E, !app_nil_r. tauto.
  - cbn [eoi_scan].
    assert ((c =? 0x0D)%N = true <-> ends_cr (p ++ [c])) as Cr by (rewrite ends_cr_snoc; lia).
    replace (p ++ c :: t) with ((p ++ [c]) ++ t) by (rewrite <- app_assoc; reflexivity).
    destruct ((c =? 0x0A)%N && cr) eqn:X.
    + apply andb_prop in X. destruct X as [X1 X2]. apply N.eqb_eq in X1. subst c.
      apply C in X2.
      assert (b = []) as ->.
      { destruct B as [B [a [-> A]]]. destruct X2 as [a' X2].
        destruct b as [|e b]; [reflexivity|]. exfalso.
        destruct (exists_last (l := e :: b)) as [u [z Z]]; [discriminate|]. rewrite Z in *.
        rewrite app_assoc in X2. apply app_inj_tail in X2. destruct X2 as [_ ->].
        eapply no_newline_cr; [exact B|reflexivity]. }
      destruct K as [->|[_ K]]; [|contradiction]. subst last.
      apply (IH _ _ _ (p ++ [0x0A%N]) [] [0x0A%N]).
      * exact Cr.
      * apply lines_crlf; assumption.
      * apply last_line_newline. cbn. tauto.
      * right. split; [reflexivity|]. rewrite ends_cr_snoc. discriminate.
      * reflexivity.
    + destruct (is_newline_char c) eqn:Nc.
      * apply newline_flag in Nc. apply (IH _ _ _ (p ++ [c]) [] []).
        -- exact Cr.
        -- apply lines_newline; auto. intros [-> X2]. apply C in X2. rewrite X2 in X. discriminate.
        -- apply last_line_newline. exact Nc.
        -- auto.
        -- reflexivity.
      * apply newline_flag_not in Nc. apply (IH _ _ _ (p ++ [c]) (b ++ [c]) k).
        -- exact Cr.
        -- apply lines_other; assumption.
        -- apply last_line_other; assumption.
        -- destruct K as [K|[K1 K2]]; [auto|]. right. split; [exact K1|].
           rewrite ends_cr_snoc. intros ->. apply Nc. cbn. tauto.
        -- rewrite <- app_assoc. exact E.
Qed.

Lemma str_width_column b : ~ In 0x09%N b -> str_width width b = column width b.
Proof.
  induction b as [|c b IH]; intros N; [reflexivity|].
  cbn [str_width column fold_right]. fold (column width b). cbn in N.
  destruct (N.eqb_spec c 0x09) as [->|D]; [tauto|].
  rewrite <- IH by tauto. reflexivity.
Qed.

Theorem eoi_position t : width0 width 0x0A%N = 0 -> (forall b, last_line t b -> ~ In 0x09%N b) ->
  exists l b,
    snd (linespan_stream width t)
    = LineSpan (LinePos (byte_len t) l (column width b)) (LinePos (byte_len t) l (column width b))
    /\ lines t l /\ last_line t b.
Proof.
  intros W Nt. cbn [linespan_stream snd].
  destruct (eoi_scan_line t false 0 t [] [] []) as [l [b [k [H [L [B K]]]]]].
  - split; [discriminate|]. intros [a A]. destruct a; discriminate.
  - constructor. constructor.
  - split; [constructor|]. exists []. auto.
  - auto.
  - reflexivity.
  - cbn [app] in L, B. exists l, b. split; [|auto].
    unfold linespan_eoi. rewrite H.
    assert (str_width width (k ++ b) = column width b) as ->; [|reflexivity].
    rewrite str_width_app, (str_width_column b).
    + destruct K as [->| ->]; cbn [str_width]; rewrite ?W; reflexivity.
    + apply Nt. exact B.
Qed.

Theorem eoi_after_last p c : width0 width 0x0A%N = 0 ->
  (forall b, last_line (p ++ [c]) b -> ~ In 0x09%N b) ->
  exists s e, nth_error (fst (linespan_stream width (p ++ [c]))) (List.length p)
    = Some (c, LineSpan s e) /\ snd (linespan_stream width (p ++ [c])) = LineSpan e e.
Proof.
  intros W Nt. destruct (line_positions p c []) as [l1 [b1 [l2 [b2 [H [L1 [B1 [L2 B2]]]]]]]].
  destruct (eoi_position (p ++ [c]) W Nt) as [l [b [E [L B]]]].
  rewrite (lines_unique _ _ _ L2 L), (last_line_unique _ _ _ B2 B) in H.
  do 2 eexists. split; [exact H|exact E].
Qed.

Theorem eoi_line t : exists l k,
  snd (linespan_stream width t) = LineSpan (LinePos (byte_len t) l k) (LinePos (byte_len t) l k)
  /\ lines t l.
Proof.
  cbn [linespan_stream snd].
  destruct (eoi_scan_line t false 0 t [] [] []) as [l [b [k [H [L _]]]]].
  - split; [discriminate|]. intros [a A]. destruct a; discriminate.
  - constructor. constructor.
  - split; [constructor|]. exists []. auto.
  - auto.
  - reflexivity.
  - unfold linespan_eoi. rewrite H. exists l, (str_width width (k ++ b)). auto.
Qed.

Lemma eoi_tab : width0 width 0x09%N <> 8 ->
  exists s e e', fst (linespan_stream width [0x09%N]) = [(0x09%N, LineSpan s e)]
    /\ snd (linespan_stream width [0x09%N]) = LineSpan e' e' /\ e <> e'.
Proof.
  intros W. do 3 eexists. split; [reflexivity|]. split; [reflexivity|].
  cbn. intros X. injection X as X. apply W. unfold width0 in *. cbn in X. lia.
Qed.
End Width.

Lemma offset_last p c : forall off, nth_error (offset_tokens off (p ++ [c])) (List.length p)
  = Some (c, Span (off + byte_len p) (off + byte_len (p ++ [c]))).
Proof.
  induction p as [|d p IH]; intros off.
  - cbn. rewrite !Nat.add_0_r. reflexivity.
  - cbn [app offset_tokens List.length nth_error byte_len]. rewrite IH. rewrite !Nat.add_assoc. reflexivity.
Qed.

Theorem eoi_bytes p c : exists s,
  nth_error (fst (span_stream (p ++ [c]))) (List.length p)
    = Some (c, Span s (byte_len (p ++ [c])))
  /\ snd (span_stream (p ++ [c])) = Span (byte_len (p ++ [c])) (byte_len (p ++ [c])).
Proof.
  exists (byte_len p). split; [|reflexivity]. cbn [span_stream fst]. rewrite offset_last. reflexivity.
Qed.
