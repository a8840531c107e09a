(** Line and column numbers in errors. *)

From Coq Require Import NArith PeanoNat List Bool String Lia ZifyBool.
From Verif Require Import Chars Ast Errors Chumsky Spans Grammar Kdl KdlChars LineSpec SpanSpec SpanProps
  LineProps Param ParamGrammar SpanIndep LineAst ErrSpec ErrGrammar ErrProps.
Import ListNotations.
Local Open Scope list_scope.

(** The characters of opening delimiters. *)
Definition opening_chars : list char := str "/*""r#{".

Lemma delimiters_opening what open o close c : delimiters what open o close c ->
  o <> [] /\ Forall (fun x => In x opening_chars) o.
Proof.
  intros H. destruct H; (split; [discriminate|]); try (repeat constructor; cbn; tauto).
  constructor; [cbn; tauto|]. apply Forall_app. split; [|repeat constructor; cbn; tauto].
  apply Forall_forall. intros x I. apply repeat_spec in I. subst. cbn. tauto.
Qed.

Lemma byte_len_zero p : byte_len p = 0 -> p = [].
Proof. destruct p as [|c p]; [reflexivity|]. cbn. pose proof (utf8_positive c). lia. Qed.

Lemma same_length_prefix (t : text) : forall p r p' r', t = p ++ r -> t = p' ++ r' ->
  byte_len p = byte_len p' -> p = p'.
Proof.
  induction t as [|c t IH]; intros p r p' r' E E' L.
  - destruct p, p'; try discriminate. reflexivity.
  - destruct p as [|x p].
    + symmetry. apply byte_len_zero. now rewrite <- L.
    + destruct p' as [|x' p'].
      { symmetry in L. cbn in L. pose proof (utf8_positive x). lia. }
      cbn [app] in E, E'. injection E as -> E. injection E' as <- E'. cbn [byte_len] in L.
      f_equal. eapply IH; [exact E|exact E'|lia].
Qed.

Section Width.
Variable width : char -> option nat.
Variable t : text.
Hypothesis opening_width : Forall (fun c => width c = Some 1) opening_chars.

Notation eoi := (linespan_eoi width t).

Definition forth (n : nat) (lp : linepos) : linepos :=
  LinePos (lp_offset lp + n) (lp_line lp) (lp_column lp + n).
Definition back (n : nat) (lp : linepos) : linepos :=
  LinePos (lp_offset lp - n) (lp_line lp) (lp_column lp - n).

Definition known (lp : linepos) : Prop := place width t lp \/ lp = eoi.

(** Spans of what was read; and of what was opened. *)
Definition plain (l : linespan) (s : span) : Prop :=
  linespan_to_span l = s
  /\ ((place width t (ls_start l) /\ place width t (ls_end l)) \/ l = LineSpan eoi eoi).
Definition opened (l : linespan) (s : span) : Prop :=
  linespan_to_span l = s
  /\ exists n lp, known lp /\ (l = LineSpan lp (forth n lp) \/ l = LineSpan (back n lp) lp).

Lemma plain_start l s : plain l s -> known (ls_start l).
Proof. intros [_ [[H _]| ->]]; [left; exact H|right; reflexivity]. Qed.

Lemma plain_env : @env_rel _ _ (linespan_env (snd (linespan_stream width t)))
  (span_env (Span (byte_len t) (byte_len t))) (right_tok width t) plain plain opened.
Proof.
  assert (E : linespan_to_span (LineSpan eoi eoi) = Span (byte_len t) (byte_len t)).
  { unfold linespan_to_span. cbn. now rewrite linespan_eoi_offset. }
  constructor.
  - intros a b a' b' (A1 & A2 & A3 & A4) (B1 & B2 & B3 & B4). split.
    + rewrite <- A1, <- B1. reflexivity.
    + left. split; assumption.
  - split; [exact E|]. right. reflexivity.
  - intros a a' (A1 & A2 & A3 & A4). split; [exact A1|]. left. split; assumption.
  - auto.
  - intros n a a' A. split.
    + destruct A as [<- _]. reflexivity.
    + exists n, (ls_start a). split; [eapply plain_start; exact A|]. left. reflexivity.
  - intros a a' [<- A]. split; [reflexivity|]. destruct A as [[_ A]| ->]; [left|right; reflexivity].
    split; exact A.
  - intros n a a' A. split.
    + destruct A as [<- _]. reflexivity.
    + exists n, (ls_start a). split; [eapply plain_start; exact A|]. right. reflexivity.
  - intros a a' [<- _]. reflexivity.
  - split; [exact E|]. right. reflexivity.
Qed.

(** ** Where a place is *)

Definition tracked (p : text) : line_tracker := track width (LineTracker 0 false 0 0) p.
Definition at_ (p : text) : linepos :=
  LinePos (lt_offset (tracked p)) (lt_line (tracked p)) (lt_column (tracked p)).

Lemma tracked_tracks p : tracks width (tracked p) p.
Proof. apply (track_all width p _ [] (track_start width)). Qed.

Lemma at_offset p : lp_offset (at_ p) = byte_len p.
Proof. apply tracked_tracks. Qed.

Lemma at_place p r : t = p ++ r -> place width t (at_ p).
Proof. intros T. apply (tracks_place width t _ _ _ (tracked_tracks p) T). Qed.

Lemma place_at lp p r : place width t lp -> t = p ++ r -> lp_offset lp = byte_len p -> lp = at_ p.
Proof.
  intros (p' & r' & l & b & T & L & B & ->) T' O. cbn [lp_offset] in O.
  assert (p' = p) as -> by (eapply same_length_prefix; [exact T|exact T'|exact O]).
  destruct (tracked_tracks p) as (O' & _ & L' & b' & B' & C'). unfold at_.
  rewrite O', C', (lines_unique _ _ _ L' L), (last_line_unique _ _ _ B' B). reflexivity.
Qed.

Lemma track_app p q : forall tr, track width tr (p ++ q) = track width (track width tr p) q.
Proof. induction p as [|c p IH]; intros tr; cbn; auto. Qed.

Lemma opening_step c tr : In c opening_chars ->
  snd (line_next_span width tr c) = LineTracker (lt_offset tr + 1) false (lt_line tr) (lt_column tr + 1).
Proof.
  intros I. assert (W : width0 width c = 1).
  { unfold width0. rewrite Forall_forall in opening_width. now rewrite (opening_width c I). }
  unfold line_next_span. cbn in I.
  destruct I as [<-|[<-|[<-|[<-|[<-|[<-|[]]]]]]]; cbn -[width0 Nat.add]; now rewrite W.
Qed.

Lemma track_opening o : Forall (fun x => In x opening_chars) o -> forall tr, o <> [] ->
  track width tr o = LineTracker (lt_offset tr + List.length o) false (lt_line tr)
                       (lt_column tr + List.length o).
Proof.
  induction 1 as [|c o I F IH]; intros tr N; [contradiction|]. cbn [track List.length].
  rewrite (opening_step c tr I). destruct o as [|d o].
  - cbn. reflexivity.
  - rewrite IH by discriminate. cbn [lt_offset lt_line lt_column List.length]. f_equal; lia.
Qed.

Lemma opening_bytes o : Forall (fun x => In x opening_chars) o -> byte_len o = List.length o.
Proof.
  induction 1 as [|c o I F IH]; [reflexivity|]. cbn [byte_len List.length]. rewrite IH.
  cbn in I. destruct I as [<-|[<-|[<-|[<-|[<-|[<-|[]]]]]]]; reflexivity.
Qed.

Lemma at_opening p o : Forall (fun x => In x opening_chars) o -> o <> [] ->
  at_ (p ++ o) = forth (List.length o) (at_ p).
Proof.
  intros F N. unfold at_, tracked. rewrite track_app, (track_opening o F _ N). reflexivity.
Qed.

Lemma opened_places l s p o q : opened l s -> between t s p o q ->
  Forall (fun x => In x opening_chars) o -> o <> [] ->
  lp_offset (ls_end l) < byte_len t \/ place width t eoi ->
  place width t (ls_start l) /\ place width t (ls_end l).
Proof.
  intros (S & n & lp & K & H) (T & B) F N E.
  assert (T' : t = (p ++ o) ++ q) by (rewrite <- app_assoc; exact T).
  assert (L : lp_offset (ls_start l) = byte_len p /\ lp_offset (ls_end l) = byte_len (p ++ o)).
  { unfold linespan_to_span in S. rewrite B in S. injection S as -> ->. auto. }
  destruct L as [L1 L2]. rewrite byte_len_app, (opening_bytes o F) in L2.
  assert (0 < List.length o) as P by (destruct o; [contradiction|cbn; lia]).
  assert (BT : byte_len p + List.length o + byte_len q = byte_len t).
  { rewrite T, !byte_len_app, (opening_bytes o F). lia. }
  destruct H as [-> | ->]; cbn [ls_start ls_end] in *.
  - assert (lp = at_ p) as ->.
    { destruct K as [K| ->]; [apply (place_at _ p (o ++ q) K T L1)|].
      exfalso. rewrite linespan_eoi_offset in L1. lia. }
    cbn [forth lp_offset] in L2.
    assert (n = List.length o) as -> by (rewrite at_offset in L2; lia).
    split; [apply (at_place p _ T)|]. rewrite <- (at_opening p o F N). apply (at_place _ _ T').
  - assert (lp = at_ (p ++ o)) as ->.
    { assert (place width t lp) as K'.
      { destruct K as [K| ->]; [exact K|]. destruct E as [E|E]; [|exact E].
        rewrite linespan_eoi_offset in E. lia. }
      apply (place_at _ (p ++ o) q K' T'). rewrite byte_len_app, (opening_bytes o F). exact L2. }
    split; [|apply (at_place _ _ T')].
    rewrite (at_opening p o F N) in *. unfold back, forth in *. cbn [lp_offset lp_line lp_column] in *.
    rewrite at_offset in *.
    destruct (Nat.eq_dec (byte_len p) 0) as [Z|Z].
    + apply byte_len_zero in Z. subst p. assert (n >= List.length o) by lia.
      assert (A : at_ [] = LinePos 0 0 0) by reflexivity. pose proof (at_place [] _ T) as Q.
      rewrite A in *. cbn [lp_offset lp_line lp_column byte_len] in *.
      replace (LinePos _ _ _) with (LinePos 0 0 0); [exact Q|]. f_equal; lia.
    + assert (n = List.length o) as -> by lia.
      replace (LinePos _ _ _) with (at_ p); [apply (at_place p _ T)|].
      rewrite <- (at_offset p). unfold at_. cbn [lp_offset lp_line lp_column]. f_equal; lia.
Qed.

Lemma plain_places l s : plain l s -> lp_offset (ls_end l) < byte_len t \/ place width t eoi ->
  place width t (ls_start l) /\ place width t (ls_end l).
Proof.
  intros [_ [H| ->]] E; [exact H|]. cbn [ls_start ls_end] in *.
  destruct E as [E|E]; [|auto]. rewrite linespan_eoi_offset in E. lia.
Qed.

Theorem error_places errs : parse_ast_linespan width t = Rejected errs ->
  Forall (fun e => Forall (fun l =>
    lp_offset (ls_end l) < byte_len t \/ place width t eoi ->
    place width t (ls_start l) /\ place width t (ls_end l)) (perror_spans e)) errs.
Proof.
  intros H.
  pose proof (parse_errors_right t _ (line_rejected width t errs H)) as X.
  pose proof (line_rejected width t errs H) as P.
  assert (rel_parsed plain opened (rel_doc plain)
            (parse_ast_linespan width t) (parse_ast_span t)) as K.
  { unfold parse_ast_span, parse_ast_linespan, span_stream, linespan_stream.
    eapply rel_run; [eapply rel_document; exact plain_env|].
    apply (right_toks width t t (LineTracker 0 false 0 0) []); [apply track_start|reflexivity]. }
  rewrite H, P in K. inversion K as [|l l' D|]; subst. clear - D X opening_width.
  revert X D. generalize (map (map_perror_span linespan_to_span) errs). intros l' X D.
  induction D as [|a b l l' R _ IH]; [constructor|].
  inversion X as [|x y E F]; subst. constructor; [|apply IH; assumption].
  destruct R as [lb s s' f x R|lb s s' o e e' x f R R'|lb s s' m R|lb s s' m h R];
    cbn [perror_spans].
  - constructor; [exact (plain_places _ _ R)|constructor].
  - constructor; [|constructor; [exact (plain_places _ _ R')|constructor]]. intros G. destruct E as ((p & o' & c & q & Dl & B & _) & _).
    destruct (delimiters_opening _ _ _ _ _ Dl) as [N O].
    now apply (opened_places _ _ _ _ _ R B O N).
  - constructor; [exact (plain_places _ _ R)|constructor].
  - constructor; [exact (plain_places _ _ R)|constructor].
Qed.

Lemma eoi_place : width0 width 0x0A%N = 0 -> (forall b, last_line t b -> ~ In 0x09%N b) ->
  place width t eoi.
Proof.
  intros W N. destruct (eoi_position width t W N) as (l & b & E & L & B).
  cbn [linespan_stream snd] in E. injection E as E. rewrite E.
  exists t, [], l, b. rewrite app_nil_r. auto.
Qed.

End Width.

Theorem error_lines width t errs : Forall (fun c => width c = Some 1) opening_chars ->
  width 0x0A%N = None \/ width 0x0A%N = Some 0 -> parse_ast_linespan width t = Rejected errs ->
  Forall (fun e => Forall (fun l =>
    lp_offset (ls_end l) < byte_len t \/ (forall b, last_line t b -> ~ In 0x09%N b) ->
    place width t (ls_start l) /\ place width t (ls_end l)) (perror_spans e)) errs.
Proof.
  intros O W H. eapply Forall_impl; [|exact (error_places width t O errs H)]. intros e K.
  eapply Forall_impl; [|exact K]. intros l X [G|G]; apply X; [left; exact G|right].
  apply eoi_place; [|exact G]. unfold width0. destruct W as [-> | ->]; reflexivity.
Qed.

(** A tab before an opening brace at the end. *)
Definition plain_width (c : char) : option nat := if N.ltb c 0x20 then None else Some 1.
Definition tab_brace : text := 0x09%N :: str "a {".

Lemma tab_column : exists sp rest, parse_ast_linespan plain_width tab_brace = Rejected rest
  /\ In sp (flat_map perror_spans rest) /\ lp_offset (ls_start sp) < byte_len tab_brace
  /\ ~ place plain_width tab_brace (ls_start sp).
Proof.
  eexists (LineSpan (LinePos 3 0 2) (LinePos 4 0 3)), _. split; [vm_compute; reflexivity|].
  split; [left; reflexivity|]. split; [vm_compute; auto|].
  cbn [ls_start]. intros P.
  pose proof (place_at plain_width tab_brace _ (0x09%N :: str "a ") (str "{") P eq_refl eq_refl) as X.
  vm_compute in X. discriminate.
Qed.

Lemma end_sample :
  let w := fun c => if N.ltb c 0x20 then None else Some 1 in
  width0 w 0x09%N <> 8 /\ width0 w 0x0A%N = 0
  /\ last_line (str "ab" ++ [0x0D; 0x0A]%N ++ str "cd") (str "cd") /\ ~ In 0x09%N (str "cd")
  /\ snd (linespan_stream w (str "ab" ++ [0x0D; 0x0A]%N ++ str "cd"))
     = LineSpan (LinePos 6 1 2) (LinePos 6 1 2).
Proof.
  split; [discriminate|]. split; [reflexivity|]. split; [|split; [|reflexivity]].
  - split; [repeat constructor; cbn; intuition discriminate|].
    exists (str "ab" ++ [0x0D; 0x0A]%N). split; [reflexivity|]. right.
    exists (str "ab" ++ [0x0D]%N), 0x0A%N. split; [reflexivity|cbn; tauto].
  - cbn. intuition discriminate.
Qed.
