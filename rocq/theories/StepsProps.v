(** Facts about the step counts: what is timed is the parser of Grammar.v, and
    unclosed comments take exponentially many steps. *)

From Coq Require Import NArith PeanoNat List Bool String Lia.
From Verif Require Import Chars Ast Errors Chumsky Spans Grammar Kdl Good LexSpace Steps.
Import ListNotations.
Local Open Scope nat_scope.
Local Open Scope list_scope.

(** ** The parsers being timed are those of Grammar.v *)

Section Same.
Context {Sp : Type} {E : env Sp}.

Notation toks := (toks Sp).

(** Reduces the combinators of Steps.v only. *)
Ltac same :=
  intros;
  cbv beta iota delta
    [t_parser t_filter t_none_of t_just t_end t_filter_map t_just_str t_map t_ignored
     t_map_with_span t_map_err t_map_err_with_span t_try_map t_validate t_rewind t_or_not
     t_bind t_then t_ignore_then t_then_ignore t_delimited t_or t_choice map
     t_repeat t_repeated t_exactly t_take_until t_recover_skip_until t_separated
     t_begin_comment t_newline t_ws_char t_id_char t_id_sans_dig t_id_sans_sign_dig
     t_ml_comment t_ws t_comment t_raw_string t_esc_char t_escaped_string t_string
     t_plus_minus t_bare_ident t_digit t_digits t_opt_sign t_fraction t_exponent
     t_decimal_number t_radix_digits t_radix_number t_number t_ident t_keyword1 t_keyword
     t_literal t_type_name t_spanned t_esc_line t_node_space t_node_terminator
     t_type_name_value t_value t_opt_value t_prop_or_arg_inner t_prop_or_arg t_line_space
     t_braced_nodes t_slashdash t_node_items t_opt_children t_node t_nodes_body t_nodes
     t_document t_ml_body
     begin_comment newline ws_char id_char id_sans_dig id_sans_sign_dig
     ws comment raw_string esc_char escaped_string string_
     plus_minus bare_ident digit digits opt_sign fraction exponent
     decimal_number radix_digits radix_number number ident keyword1 keyword
     literal_ type_name p_spanned esc_line node_space node_terminator
     type_name_value value_ opt_value prop_or_arg_inner prop_or_arg line_space
     braced_nodes slashdash node_items opt_children node_ nodes_body
     document_ ml_body
     p_then p_ignore_then p_then_ignore p_delimited p_repeated p_exactly p_none_of p_ignored];
  reflexivity.

Lemma ml_body_timed c : t_parser (@t_ml_body Sp E c) = ml_body (t_parser c).
Proof. same. Qed.

Lemma nodes_body_timed n : t_parser (@t_nodes_body Sp E n) = nodes_body (t_parser n).
Proof. same. Qed.

Lemma document_timed : t_parser (@t_document Sp E) = document_.
Proof. same. Qed.

Lemma newline_timed : t_parser (@t_newline Sp E) = newline.
Proof. same. Qed.

Lemma ws_chars_timed :
  t_parser (@t_ignored Sp (list unit) (t_repeat 1 None t_ws_char))
  = p_ignored (p_repeat 1 None (@ws_char Sp E)).
Proof. same. Qed.

Lemma slashdash_timed : t_parser (@t_slashdash Sp E) = slashdash.
Proof. same. Qed.

Lemma opt_type_timed :
  t_parser (t_or_not (t_spanned (@t_type_name Sp E))) = p_or_not (p_spanned type_name).
Proof. same. Qed.

Lemma spanned_ident_timed : t_parser (t_spanned (@t_ident Sp E)) = p_spanned ident.
Proof. same. Qed.

Lemma terminator_timed : t_parser (@t_node_terminator Sp E) = node_terminator.
Proof. same. Qed.

End Same.

(** ** Openings of comments that are never closed *)

Section Exponential.
Context {Sp : Type} {E : env Sp}.

Notation toks := (toks Sp).

(** Slash, star and a letter, [n] times, with any spans. *)
Inductive openings : nat -> toks -> Prop :=
| Op_nil : openings 0 []
| Op_cons n a b c ts : openings n ts ->
    openings (S n) ((0x2F%N, a) :: (0x2A%N, b) :: (0x61%N, c) :: ts).

Lemma item_slash f (a : Sp) ts : failed (ml_comment_rec f ((0x2F%N, a) :: ts)) ->
  succ (ml_item (ml_comment_rec f) ((0x2F%N, a) :: ts)) tt ts.
Proof.
  intros F. apply succ_choice_miss; [exact F|]. intros alt. apply succ_choice_hit.
  apply (succ_ignored (p_none_of 0x2A%N) _ 0x2F%N). apply succ_filter. reflexivity.
Qed.

Lemma item_letter f (a : Sp) ts : succ (ml_item (ml_comment_rec f) ((0x61%N, a) :: ts)) tt ts.
Proof.
  apply succ_choice_miss; [apply ml_rec_failed; intros [u U]; discriminate|].
  intros alt. apply succ_choice_hit.
  apply (succ_ignored (p_none_of 0x2A%N) _ 0x61%N). apply succ_filter. reflexivity.
Qed.

Lemma item_star f (a b : Sp) ts :
  succ (ml_item (ml_comment_rec f) ((0x2A%N, a) :: (0x61%N, b) :: ts)) tt ((0x61%N, b) :: ts).
Proof.
  apply succ_choice_miss; [apply ml_rec_failed; intros [u U]; discriminate|].
  intros alt. apply succ_choice_miss.
  { apply failed_map, failed_filter. reflexivity. }
  intros alt'. apply succ_choice_hit.
  eapply succ_ignored. eapply succ_then_ignore; [apply succ_just|].
  eapply succ_rewind. apply succ_filter. reflexivity.
Qed.

Lemma openings_failed f : forall n ts, openings n ts -> failed (ml_comment_rec f ts).
Proof.
  induction f as [|f IH]; intros n ts H; [eexists; reflexivity|].
  destruct H as [|n a b c ts H].
  { apply ml_rec_failed. intros [u U]. discriminate. }
  rewrite ml_rec_eq.
    assert (forall n ts, openings n ts -> exists l, schain (ml_item (ml_comment_rec f)) ts l []) as C.
    { clear - IH. induction 1 as [|n a b c ts H [l C]]; [exists []; constructor|].
      exists (tt :: tt :: tt :: l).
      eapply SChain_cons; [apply item_slash; eapply IH; constructor; exact H | simpl; lia |].
      eapply SChain_cons; [apply item_star | simpl; lia |].
      eapply SChain_cons; [apply item_letter | simpl; lia |]. exact C. }
    destruct (C _ _ H) as [l C'].
  eapply failed_then_ignore2.
  - eapply succ_ignore_then; [apply succ_begin_comment|]. eapply succ_ignored.
    apply succ_repeated.
    + eapply SChain_cons; [apply item_letter | simpl; lia |]. exact C'.
    + apply failed_choice; [apply ml_rec_failed; intros [u U]; discriminate|].
      intros alt. apply failed_choice; [apply failed_map, failed_filter_nil|].
      intros alt'. apply failed_choice; [|intros; apply failed_choice_nil].
      apply failed_map, failed_then_ignore1, failed_just_nil.
  - apply failed_just_str. intros [u U]. discriminate.
Qed.

Lemma steps_first {A B} (p : timed Sp A) (q : timed Sp B) ts :
  t_steps p ts <= t_steps (t_then_ignore p q) ts.
Proof. unfold t_then_ignore, t_then, t_map, t_bind. cbn [t_steps]. lia. Qed.

Lemma steps_ignore_then {A B} (p : timed Sp A) (q : timed Sp B) ts a rest :
  succ (t_parser p ts) a rest ->
  t_steps (t_ignore_then p q) ts = t_steps p ts + t_steps q rest.
Proof.
  intros [_ [alt H]]. unfold t_ignore_then, t_then, t_map, t_bind. cbn [t_steps].
  rewrite H. reflexivity.
Qed.

(** One more item. *)
Lemma repeat_steps_succ {A} (p : timed Sp A) fuel k old ts a rest :
  succ (t_parser p ts) a rest ->
  match old with Some o => o <> List.length rest | None => True end ->
  repeat_steps (S fuel) p None k old ts
  = t_steps p ts + repeat_steps fuel p None (S k) (Some (List.length rest)) rest.
Proof.
  intros [_ [alt H]] O. cbn [repeat_steps]. rewrite H. destruct old as [o|]; [|reflexivity].
  apply Nat.eqb_neq in O. rewrite O. reflexivity.
Qed.

(** The item of the loop in [ml_comment]. *)
Definition t_item (f : nat) : timed Sp unit :=
  t_choice
    [ Timed (ml_comment_rec f) (ml_comment_steps f);
      t_ignored (t_none_of 0x2A%N);
      t_ignored (t_then_ignore (t_just 0x2A%N) (t_rewind (t_none_of 0x2F%N))) ].

Lemma item_first f ts : ml_comment_steps f ts <= t_steps (t_item f) ts.
Proof. unfold t_item, t_choice. cbn [t_steps choice_steps]. lia. Qed.

Lemma comment_steps_ge f m a b c ts :
  (forall fuel k o, List.length ts < fuel -> List.length ts <= o ->
     m <= S (repeat_steps fuel (t_item f) None k (Some o) ts)) ->
  m <= ml_comment_steps (S f) ((0x2F%N, a) :: (0x2A%N, b) :: (0x61%N, c) :: ts).
Proof.
  intros IH. cbn [ml_comment_steps]. unfold t_ml_body, t_delimited.
  eapply Nat.le_trans; [|apply steps_first].
  rewrite (steps_ignore_then _ _ _ tt ((0x61%N, c) :: ts)) by apply succ_begin_comment.
  unfold t_ignored at 1, t_repeated, t_repeat. cbn [t_steps].
  fold (t_item f). cbn [Nat.add].
  rewrite (repeat_steps_succ _ _ _ _ _ tt ts); [| apply item_letter | exact I].
  match goal with |- _ <= _ + (_ + repeat_steps ?F ?P None ?K ?O ?T) =>
    assert (m <= S (repeat_steps F P None K O T)) as C end.
  { apply IH; [apply Nat.lt_lt_succ_r, Nat.lt_lt_succ_r, Nat.lt_succ_diag_r | apply le_n]. }
  match goal with |- _ <= t_steps ?P ?T + _ => assert (1 <= t_steps P T) as D end.
  { unfold t_begin_comment, t_ignore_then, t_then, t_map, t_bind. cbn [t_steps].
    cbn [t_map_err t_steps t_just]. lia. }
  lia.
Qed.

Lemma openings_loop : forall n ts, openings n ts ->
  forall f fuel k old, n <= f -> List.length ts < fuel ->
  match old with Some o => List.length ts <= o | None => True end ->
  2 ^ n <= S (repeat_steps fuel (t_item f) None k old ts).
Proof.
  induction 1 as [|n a b c ts H IH]; intros f fuel k old F L O; [simpl; lia|].
  cbn [List.length] in L, O.
  destruct fuel as [|[|[|fuel]]]; try lia.
  rewrite (repeat_steps_succ _ _ _ _ _ tt ((0x2A%N, b) :: (0x61%N, c) :: ts));
    [| apply item_slash; eapply openings_failed; constructor; exact H
     | destruct old; [cbn [List.length]; lia | exact I]].
  rewrite (repeat_steps_succ _ _ _ _ _ tt ((0x61%N, c) :: ts));
    [| apply item_star | cbn [List.length]; lia].
  rewrite (repeat_steps_succ _ _ _ _ _ tt ts);
    [| apply item_letter | cbn [List.length]; lia].
  assert (2 ^ n <= S (repeat_steps fuel (t_item f) None (S (S (S k)))
                        (Some (List.length ts)) ts)) as A.
  { apply IH; lia. }
  assert (2 ^ n <= t_steps (t_item f) ((0x2F%N, a) :: (0x2A%N, b) :: (0x61%N, c) :: ts)) as B.
  { eapply Nat.le_trans; [|apply item_first].
    destruct f as [|f]; [lia|]. apply comment_steps_ge.
    intros fuel' k' o L' O'. apply IH; [lia | exact L' | exact O']. }
  cbn [Nat.pow]. lia.
Qed.

(** The comment parser takes at least [2 ^ n] steps on [n + 1] openings. *)
Lemma openings_comment n ts : openings (S n) ts -> 2 ^ n <= t_steps t_ml_comment ts.
Proof.
  intros H. inversion H as [|? a b c ts' H' Q1 Q2]; subst.
  unfold t_ml_comment. cbn [t_steps]. apply comment_steps_ge.
  assert (List.length ts' = 3 * n) as L.
  { clear - H'. induction H'; cbn [List.length]; lia. }
  intros fuel k o F O. apply openings_loop with (n := n); auto. cbn [List.length]. lia.
Qed.

Lemma steps_or_r {A} (p q : timed Sp A) ts : failed (t_parser p ts) ->
  t_steps q ts <= t_steps (t_or p q) ts.
Proof.
  intros [e F]. unfold t_or. cbn [t_steps]. rewrite F.
  destruct (r_errs (t_parser p ts)); lia.
Qed.

Lemma steps_or_l {A} (p q : timed Sp A) ts : t_steps p ts <= t_steps (t_or p q) ts.
Proof. unfold t_or. cbn [t_steps]. lia. Qed.

Lemma steps_separated {A B} (item : timed Sp A) (d : timed Sp B) ts :
  t_steps d ts <= t_steps (t_separated item d) ts.
Proof. unfold t_separated. cbn [t_steps]. lia. Qed.

Lemma steps_repeated {A} (p : timed Sp A) ts : t_steps p ts <= t_steps (t_repeated p) ts.
Proof. unfold t_repeated, t_repeat. cbn [t_steps Nat.add repeat_steps]. lia. Qed.

Lemma steps_map {A B} (f : A -> B) (p : timed Sp A) ts : t_steps (t_map f p) ts = t_steps p ts.
Proof. reflexivity. Qed.

Lemma steps_timed {A} (p : parser Sp A) s ts : t_steps (Timed p s) ts = s ts.
Proof. reflexivity. Qed.

Lemma nodes_steps_succ f :
  @nodes_steps Sp E (S f) = t_steps (t_nodes_body (Timed (nodes_rec f) (nodes_steps f))).
Proof. reflexivity. Qed.

Lemma steps_nodes_body n ts : t_steps (t_repeated t_line_space) ts <= t_steps (t_nodes_body n) ts.
Proof. unfold t_nodes_body. rewrite steps_map. apply steps_separated. Qed.

Lemma steps_nodes ts : t_steps (t_repeated t_line_space) ts <= t_steps t_nodes ts.
Proof.
  unfold t_nodes. rewrite steps_timed, nodes_steps_succ. apply steps_nodes_body.
Qed.

Lemma openings_document n ts : openings (S n) ts -> 2 ^ n <= t_steps t_document ts.
Proof.
  intros H. eapply Nat.le_trans; [apply openings_comment, H|].
  inversion H as [|? a b c ts' H' Q1 Q2]; subst. remember (_ :: _) as ts eqn:Q. clear H'.
  eapply Nat.le_trans; [|apply steps_first].
  eapply Nat.le_trans; [|apply steps_nodes].
  eapply Nat.le_trans; [|apply steps_repeated].
  unfold t_line_space. eapply Nat.le_trans; [|apply steps_or_l].
  eapply Nat.le_trans; [|apply steps_or_r].
  - unfold t_ws, t_map_err. cbn [t_steps]. apply steps_or_r.
    rewrite ws_chars_timed, Q.
    apply failed_map, failed_repeat1; [discriminate|]. apply failed_map, failed_filter. reflexivity.
  - rewrite newline_timed, Q. apply newline_failed. simpl. unfold newline_chars. cbn [In]. lia.
Qed.

End Exponential.

(** ** Exponential against polynomial *)

Fixpoint repeat_text (n : nat) (t : text) : text :=
  match n with O => [] | S n => t ++ repeat_text n t end.

Lemma offset_openings n : forall off,
  @openings span n (offset_tokens off (repeat_text n (str "/*a"))).
Proof.
  induction n as [|n IH]; intros off; [constructor|].
  cbn [repeat_text str app offset_tokens]. constructor. apply IH.
Qed.

Lemma repeat_text_len n : List.length (repeat_text n (str "/*a")) = 3 * n.
Proof.
  induction n as [|n IH]; [reflexivity|]. cbn [repeat_text]. rewrite app_length, IH. simpl. lia.
Qed.

Lemma parse_steps_openings n : 2 ^ n <= parse_steps (repeat_text (S n) (str "/*a")).
Proof. unfold parse_steps, span_stream. apply openings_document, offset_openings. Qed.

Lemma pow2_square m : 5 <= m -> m * m < 2 ^ m.
Proof.
  induction 1 as [|m M IH]; [simpl; lia|]. cbn [Nat.pow]. nia.
Qed.

Theorem steps_exponential k : exists t, k * (List.length t + 1) ^ k < parse_steps t.
Proof.
  pose (m := 2 * k + 7). assert (m = 2 * k + 7) as M by reflexivity. clearbody m.
  pose (n := 2 ^ m). assert (n = 2 ^ m) as N by reflexivity. clearbody n.
  exists (repeat_text n (str "/*a")). rewrite repeat_text_len.
  assert (n <> 0) as N1 by (rewrite N; apply Nat.pow_nonzero; discriminate).
  assert (m * m < n) as N2 by (rewrite N; apply pow2_square; lia).
  destruct n as [|n]; [contradiction|]. clear N1.
  eapply Nat.lt_le_trans; [|apply parse_steps_openings].
  apply Nat.le_lt_trans with (2 ^ k * (2 ^ (m + 2)) ^ k).
  - apply Nat.mul_le_mono.
    + apply Nat.lt_le_incl, Nat.pow_gt_lin_r. lia.
    + apply Nat.pow_le_mono_l. rewrite Nat.pow_add_r, <- N. change (2 ^ 2) with 4. lia.
  - rewrite <- Nat.pow_mul_r, <- Nat.pow_add_r. apply Nat.pow_lt_mono_r; [lia|].
    rewrite M in *. nia.
Qed.
