(** The parsers of the grammar do not look past what two inputs share without
    leaving an error there. *)

From Coq Require Import NArith ZArith PeanoNat List Bool String Lia ZifyBool.
From Verif Require Import Chars Ast Errors Chumsky Spans Grammar Safe GrammarSafe Near GrammarNear Kdl KdlChars KdlText
  Good LexSpace LexLit LexIdent ItemProps EarlySpec EarlyCalc.
Import ListNotations.
Local Open Scope list_scope.

Local Existing Instance unit_env.


(** ** Combinators *)

Lemma D_of {A} (p : parser A) : Safe p -> det p -> D p.
Proof. intros S H. split; [apply fwd_safe, S|exact H]. Qed.

Lemma D_just x : D (p_just x).
Proof. apply D_of; [auto with safe|apply det_just]. Qed.
Lemma D_filter f : D (p_filter f).
Proof. apply D_of; [auto with safe|apply det_filter]. Qed.
Lemma D_just_str s : D (p_just_str s).
Proof. apply D_of; [auto with safe|apply det_just_str]. Qed.
Lemma D_end : D p_end.
Proof. apply D_of; [auto with safe|apply det_end]. Qed.
Lemma D_map {A B} (f : A -> B) p : D p -> D (p_map f p).
Proof. intros [F H]. split; [apply fwd_map, F|apply det_map, H]. Qed.
Lemma D_ignored {A} (p : parser A) : D p -> D (p_ignored p).
Proof. apply D_map. Qed.
Lemma D_map_with_span {A B} (f : A -> unit -> B) p : D p -> D (p_map_with_span f p).
Proof. intros [F H]. split; [apply fwd_map_with_span, F|apply det_map_with_span, H]. Qed.
Lemma D_spanned {A} (p : parser A) : D p -> D (p_spanned p).
Proof. apply D_map_with_span. Qed.
Lemma D_map_err {A} f (p : parser A) : D p -> D (p_map_err f p).
Proof. intros [F H]. split; [apply fwd_map_err, F|apply det_map_err, H]. Qed.
Lemma D_map_err_with_span {A} f (p : parser A) : D p -> D (p_map_err_with_span f p).
Proof. intros [F H]. split; [apply fwd_map_err_with_span, F|apply det_map_err_with_span, H]. Qed.
Lemma D_or_not {A} (p : parser A) : D p -> D (p_or_not p).
Proof. intros [F H]. split; [apply fwd_or_not, F|apply det_or_not, H]. Qed.
Lemma D_validate {A B} (f : A -> unit -> B * option (perror unit)) p : D p -> D (p_validate f p).
Proof. intros [F H]. split; [apply fwd_validate, F|apply det_validate, H]. Qed.
Lemma D_bind {A B} (p : parser A) (k : A -> parser B) : D p -> (forall a, D (k a)) -> D (p_bind p k).
Proof. intros H K. split; [apply fwd_bind; [apply H|intros a; apply K]|apply det_bind; assumption]. Qed.
Lemma D_then {A B} (p : parser A) (k : parser B) : D p -> D k -> D (p_then p k).
Proof. intros H K. apply D_bind; auto. Qed.
Lemma D_ignore_then {A B} (p : parser A) (k : parser B) : D p -> D k -> D (p_ignore_then p k).
Proof. intros H K. apply D_map, D_then; auto. Qed.
Lemma D_then_ignore {A B} (p : parser A) (k : parser B) : D p -> D k -> D (p_then_ignore p k).
Proof. intros H K. apply D_map, D_then; auto. Qed.
Lemma D_delimited {A B C} (p : parser A) (o : parser B) (c : parser C) : D p -> D o -> D c -> D (p_delimited p o c).
Proof. intros H K L. apply D_then_ignore; [apply D_ignore_then|]; auto. Qed.
Lemma D_or {A} (p k : parser A) : D p -> D k -> apart p k -> D (p_or p k).
Proof. intros [F H] [G K] L. split; [apply fwd_or; auto|apply det_or; auto]. Qed.
Lemma D_or_quiet {A} (p k : parser A) : quiet p -> D p -> D k -> D (p_or p k).
Proof. intros Q H K. apply D_or; auto using apart_quiet. Qed.
Lemma D_repeat1 {A} al am (p : parser A) : al <= 1 -> D p -> eats 1 p -> D (p_repeat al am p).
Proof. intros L H K. split; [apply fwd_repeat; auto|apply det_repeat; auto]. Qed.
Lemma D_repeated {A} (p : parser A) : D p -> eats 1 p -> D (p_repeated p).
Proof. apply D_repeat1. auto. Qed.
Lemma D_repeat_noalt {A} al am (p : parser A) : noalt p -> D p -> eats 1 p -> D (p_repeat al am p).
Proof. intros L H K. split; [apply fwd_repeat; auto|apply det_repeat; auto]. Qed.
Lemma D_take_until {A} (p : parser A) : D p -> D (p_take_until p).
Proof. intros H. split; [apply fwd_take_until; auto|apply det_take_until; auto]. Qed.
Lemma D_choice {A} (ps : list (parser A)) : Forall D ps -> kept ps -> D (p_choice ps).
Proof.
  intros F K. split.
  - apply fwd_choice. revert F. apply Forall_impl. intros p X. apply X.
  - apply det_choice; [|exact K]. revert F. apply Forall_impl. intros p X. apply X.
Qed.

Create HintDb early.
#[export] Hint Resolve D_just D_filter D_just_str D_end : early.
#[export] Hint Resolve quiet_just quiet_filter quiet_just_str quiet_end : early.

Ltac quiets :=
  lazymatch goal with
  | |- quiet (p_map _ _) => apply quiet_map; quiets
  | |- quiet (p_ignored _) => apply quiet_ignored; quiets
  | |- quiet (p_map_err _ _) => apply quiet_map_err; quiets
  | |- quiet (p_ignore_then _ _) => apply quiet_ignore_then; quiets
  | |- quiet (p_or _ _) => apply quiet_or; quiets
  | |- quiet (p_or_not _) => apply quiet_or_not; quiets
  | |- quiet (p_repeated _) => apply quiet_repeated; quiets
  | |- quiet (p_repeat _ _ _) => apply quiet_repeat; quiets
  | |- _ => auto with early
  end.

Ltac ds :=
  lazymatch goal with
  | |- D (p_none_of _) => apply D_filter
  | |- D (p_map _ _) => apply D_map; ds
  | |- D (p_ignored _) => apply D_ignored; ds
  | |- D (p_spanned _) => apply D_spanned; ds
  | |- D (p_map_with_span _ _) => apply D_map_with_span; ds
  | |- D (p_map_err _ _) => apply D_map_err; ds
  | |- D (p_map_err_with_span _ _) => apply D_map_err_with_span; ds
  | |- D (p_validate _ _) => apply D_validate; ds
  | |- D (p_then _ _) => apply D_then; ds
  | |- D (p_ignore_then _ _) => apply D_ignore_then; ds
  | |- D (p_then_ignore _ _) => apply D_then_ignore; ds
  | |- D (p_delimited _ _ _) => apply D_delimited; ds
  | |- D (p_or _ _) => apply D_or_quiet; [quiets|ds|ds]
  | |- D (p_or_not _) => apply D_or_not; ds
  | |- D (p_repeated _) => apply D_repeated; [ds|try solve [auto with safe | eat1]]
  | |- D (p_repeat 1 _ _) => apply D_repeat1; [auto|ds|try solve [auto with safe | eat1]]
  | |- D (p_take_until _) => apply D_take_until; ds
  | |- _ => auto with early
  end.

(** ** Spaces *)

Lemma D_begin_comment x : D (begin_comment x).
Proof. unfold begin_comment. ds. Qed.
#[export] Hint Resolve D_begin_comment quiet_begin_comment : early.

Lemma D_newline : D newline.
Proof. unfold newline. ds. Qed.
#[export] Hint Resolve D_newline quiet_newline : early.

Lemma cut_long {A} (m q x y : list A) : m ++ q = x ++ y -> List.length q < List.length y ->
  exists z, m = x ++ z /\ y = z ++ q /\ z <> [].
Proof.
  intros H L. destruct (cut_length m q x y H) as (z & Y & X); [lia|].
  exists z. subst. repeat split. intros ->. simpl in L. lia.
Qed.

Lemma chars_starts s (ts : toks) t : chars ts = s ++ t ->
  exists u v, ts = u ++ v /\ chars u = s /\ chars v = t.
Proof. intros H. apply chars_split in H. exact H. Qed.

Lemma ml_begin_err ts e0 : r_out (begin_comment 0x2A%N ts) = Err e0 ->
  exists e, r_out (ml_comment ts) = Err e /\ l_rem e = l_rem e0.
Proof.
  intros H. unfold ml_comment.
  assert (r_out (ml_comment_rec (S (len ts)) ts) = Err e0) as X.
  { cbn [ml_comment_rec]. unfold ml_body, p_delimited, p_then_ignore, p_ignore_then, p_map, p_then, p_bind.
    cbn [r_out]. rewrite H. cbn [r_out]. reflexivity. }
  generalize (span_err_out ml_comment_err (ml_comment_rec (S (len ts))) ts). rewrite X. auto.
Qed.

Lemma sl_chars x (ts : toks) : sl x ts = true -> exists w, chars ts = 0x2F%N :: x :: w.
Proof.
  destruct ts as [|[a s] [|[b s'] ts]]; cbn [sl]; try discriminate. intros H.
  apply andb_prop in H. destruct H as [H1 H2]. apply N.eqb_eq in H1, H2. subst.
  exists (chars ts). reflexivity.
Qed.

Lemma D_ml_comment : D ml_comment.
Proof.
  apply D_of; [auto with safe|]. intros m q q' T L.
  destruct (r_out (begin_comment 0x2A%N (m ++ q))) as [a r alt|e] eqn:O.
  - apply begin_comment_ok, sl_chars in O. destruct O as (w & O).
    destruct T as [T _]. destruct (T [] w) as (b & r2 & B & E); [exact O|].
    assert (chars (m ++ q) = b ++ r2) as E2 by (rewrite O; exact E). clear E.
    apply chars_starts in E2. destruct E2 as (u & v & E & <- & <-).
    destruct (ml_comment_complete u v B) as (_ & alt' & X). rewrite E, X in L |- *.
    destruct L as [L _]. destruct (cut_long _ _ _ _ E L) as (z & -> & -> & _).
    rewrite <- app_assoc. destruct (ml_comment_complete u (z ++ q') B) as (_ & alt2 & ->). apply agree_same.
  - destruct (ml_begin_err _ _ O) as (e1 & X & Y). rewrite X in L |- *. cbn [low] in L. rewrite Y in L.
    destruct (D_begin_comment 0x2A%N) as [_ H]. specialize (H m q q' T). rewrite O in H. specialize (H L).
    apply agree_err in H. destruct H as (e' & H). apply ml_begin_err in H. destruct H as (e2 & -> & _). exact I.
Qed.
#[export] Hint Resolve D_ml_comment quiet_ml_comment : early.

Lemma D_ws : D ws.
Proof. unfold ws, ws_char. ds. Qed.
#[export] Hint Resolve D_ws quiet_ws : early.

Lemma D_comment : D comment.
Proof. unfold comment. ds. Qed.
#[export] Hint Resolve D_comment quiet_comment : early.

Lemma D_esc_line : D esc_line.
Proof. unfold esc_line. ds. Qed.
#[export] Hint Resolve D_esc_line quiet_esc_line : early.

Lemma D_node_space : D node_space.
Proof. unfold node_space. ds. Qed.
#[export] Hint Resolve D_node_space quiet_node_space : early.

Lemma D_line_space : D line_space.
Proof. unfold line_space. ds. Qed.
#[export] Hint Resolve D_line_space quiet_line_space : early.

(** ** Alternatives that do not overlap *)

Lemma kept_rej {A} f g (p k : parser A) ts e a rest alt : rej f p -> rej g k ->
  (forall c, g c = true -> f c = false) -> fwd k ->
  r_out (p ts) = Err e -> r_out (k ts) = Ok a rest alt -> len rest <= l_rem e.
Proof.
  intros P K H F X Y. assert (L := suffix_len _ _ (fwd_ok _ _ _ _ _ F Y)).
  apply (rej_no g _ _ _ _ _ K) in Y.
  assert (hd f ts = false) as Z by (destruct ts as [|[c s] ts]; [reflexivity|apply H, Y]).
  apply (rej_enear f _ P _ _ X) in Z. lia.
Qed.

Lemma kept_near {A} (p k : parser A) ts e a rest alt : enear 1 anyp p -> eats 1 k ->
  r_out (p ts) = Err e -> r_out (k ts) = Ok a rest alt -> len rest <= l_rem e.
Proof. intros P K X Y. apply K in Y. specialize (P _ _ X I). lia. Qed.

Lemma nl_not_slash c : (c =? 0x2F)%N = true -> is_nl c = false.
Proof. intros H. apply N.eqb_eq in H. subst. reflexivity. Qed.

Lemma D_node_terminator : D node_terminator.
Proof.
  unfold node_terminator. apply D_choice; [foralls; ds|].
  assert (forall (p : parser unit) ts e a rest alt, r_out (p ts) = Err e -> r_out (p_end ts) = Ok a rest alt ->
    len rest <= l_rem e) as En.
  { intros p [|x ts] e a rest alt _ X; [|discriminate]. inversion X; subst. simpl. lia. }
  split; [|split; [|split; [|split; [|exact I]]]].
  - intros ts e k a rest alt _ X [<-|[<-|[<-|[]]]] Y.
    + refine (kept_rej is_nl (fun c => (c =? 0x2F)%N) _ _ _ _ _ _ _ _ _ nl_not_slash _ X Y);
        [apply rej_newline|apply rej_comment|apply D_comment].
    + refine (kept_rej is_nl (fun c => (c =? 0x3B)%N) _ _ _ _ _ _ _ _ _ _ _ X Y);
        [apply rej_newline|apply rej_ignored, rej_just| |apply (D_ignored _ (D_just _))].
      intros c H. apply N.eqb_eq in H. subst. reflexivity.
    + exact (En _ _ _ _ _ _ X Y).
  - intros ts e k a rest alt _ X [<-|[<-|[]]] Y.
    + refine (kept_rej (fun c => (c =? 0x2F)%N) (fun c => (c =? 0x3B)%N) _ _ _ _ _ _ _ _ _ _ _ X Y);
        [apply rej_comment|apply rej_ignored, rej_just| |apply (D_ignored _ (D_just _))].
      intros c H. apply N.eqb_eq in H. subst. reflexivity.
    + exact (En _ _ _ _ _ _ X Y).
  - intros ts e k a rest alt _ X [<-|[]] Y. exact (En _ _ _ _ _ _ X Y).
  - intros ts e k a rest alt _ X [].
Qed.
#[export] Hint Resolve D_node_terminator : early.

(** ** Strings *)

Lemma D_raw_string : D raw_string.
Proof.
  unfold raw_string. apply D_map, D_bind; [ds|]. intros n. ds.
  apply D_repeat_noalt; [apply noalt_just|ds|apply eats_just].
Qed.
#[export] Hint Resolve D_raw_string quiet_raw_string : early.
