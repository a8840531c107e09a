(** [rej], [near] and [enear] for the parsers of the grammar below nodes. *)

From Coq Require Import NArith PeanoNat List Bool String Lia ZifyBool.
From Verif Require Import Chars Ast Errors Chumsky Spans Grammar Safe GrammarSafe Near.
Import ListNotations.
Local Open Scope list_scope.

Ltac by_chars := intros ?c; rewrite ?orb_true_iff; tauto.

Section GrammarNear.
Context {Sp : Type} {E : env Sp}.

Notation parser := (parser Sp).
Notation toks := (toks Sp).
Notation located := (located Sp).
Notation len := (@List.length (tok Sp)).

(** ** Parsers that emit nothing *)

Lemma quiet_just x : quiet (p_just x).
Proof. intros [|[c s] ts]; simpl; auto. now destruct (N.eqb c x). Qed.
Lemma quiet_filter x : quiet (p_filter x).
Proof. intros [|[c s] ts]; simpl; auto. now destruct (x c). Qed.
Lemma quiet_filter_map {A} (f : Sp -> char -> A + perror Sp) : quiet (p_filter_map f).
Proof. intros [|[c s] ts]; simpl; auto. now destruct (f s c). Qed.
Lemma quiet_just_str s : quiet (p_just_str s).
Proof.
  induction s as [|x s IH]; intros ts; cbn [p_just_str]; auto.
  destruct ts as [|[c sp] ts]; auto. destruct (N.eqb c x); auto.
Qed.
Lemma quiet_end : quiet p_end.
Proof. now intros [|x ts]. Qed.
Lemma quiet_map {A B} (f : A -> B) (p : parser A) : quiet p -> quiet (p_map f p).
Proof. intros H ts. apply H. Qed.
Lemma quiet_ignored {A} (p : parser A) : quiet p -> quiet (p_ignored p).
Proof. intros H ts. apply H. Qed.
Lemma quiet_map_with_span {A B} (f : A -> Sp -> B) (p : parser A) :
  quiet p -> quiet (p_map_with_span f p).
Proof. intros H ts. apply H. Qed.
Lemma quiet_map_err {A} f (p : parser A) : quiet p -> quiet (p_map_err f p).
Proof. intros H ts. apply H. Qed.
Lemma quiet_try_map {A B} (f : A -> Sp -> B + perror Sp) (p : parser A) :
  quiet p -> quiet (p_try_map f p).
Proof. intros H ts. apply H. Qed.
Lemma quiet_map_err_with_span {A} f (p : parser A) :
  quiet p -> quiet (p_map_err_with_span f p).
Proof.
  intros H ts. unfold p_map_err_with_span.
  destruct (r_out (p ts)); auto. destruct (f _ _); simpl; auto.
Qed.
Lemma quiet_bind {A B} (p : parser A) (q : A -> parser B) :
  quiet p -> (forall a, quiet (q a)) -> quiet (p_bind p q).
Proof.
  intros Hp Hq ts. unfold p_bind. destruct (r_out (p ts)) as [a r alt|e]; simpl; auto.
  destruct (r_out (q a r)) as [b r2 alt2|e2].
  - destruct (merge_alts alt alt2). simpl. now rewrite Hp, Hq.
  - destruct (lmax_opt e2 alt). simpl. now rewrite Hp, Hq.
Qed.
Lemma quiet_then {A B} (p : parser A) (q : parser B) :
  quiet p -> quiet q -> quiet (p_then p q).
Proof. intros. now apply quiet_bind. Qed.
Lemma quiet_ignore_then {A B} (p : parser A) (q : parser B) :
  quiet p -> quiet q -> quiet (p_ignore_then p q).
Proof. intros. now apply quiet_map, quiet_then. Qed.
Lemma quiet_then_ignore {A B} (p : parser A) (q : parser B) :
  quiet p -> quiet q -> quiet (p_then_ignore p q).
Proof. intros. now apply quiet_map, quiet_then. Qed.
Lemma quiet_delimited {A B C} (p : parser A) (o : parser B) (c : parser C) :
  quiet p -> quiet o -> quiet c -> quiet (p_delimited p o c).
Proof. intros. apply quiet_then_ignore; auto. now apply quiet_ignore_then. Qed.
Lemma quiet_or {A} (p q : parser A) : quiet p -> quiet q -> quiet (p_or p q).
Proof.
  intros Hp Hq ts.
  destruct (p_or_cases p q ts) as
    [(a & rest & alt & He & Ho & X)
    |[D [(a & rest & alt & alt' & c & Ho & He & M & X)
        |[(a & rest & alt & alt' & c & Ho & M & X)
         |(ea & eb & Ha & Hb & [[X _]|[[X _]|(e & c & M & Le & X)]])]]]];
  rewrite X; simpl; auto.
Qed.
Lemma quiet_choice_from {A} (ps : list (parser A)) : Forall quiet ps ->
  forall alt, quiet (p_choice_from alt ps).
Proof.
  induction 1 as [|p ps Hp Hps IH]; intros alt ts; cbn [p_choice_from].
  - now destruct alt.
  - destruct (r_out (p ts)); auto. destruct (merge_alts alt (Some e)). apply IH.
Qed.
Lemma quiet_choice {A} (ps : list (parser A)) : Forall quiet ps -> quiet (p_choice ps).
Proof. intros H ts. now apply quiet_choice_from. Qed.
Lemma quiet_or_not {A} (p : parser A) : quiet p -> quiet (p_or_not p).
Proof. intros H ts. unfold p_or_not. destruct (r_out (p ts)); simpl; auto. Qed.
Lemma quiet_rewind {A} (p : parser A) : quiet p -> quiet (p_rewind p).
Proof. intros H ts. apply H. Qed.
Lemma quiet_repeat_loop {A} (p : parser A) al am : quiet p ->
  forall fuel outs alt old cr ts,
  r_errs (repeat_loop fuel p al am [] outs alt old cr ts) = [].
Proof.
  intros H. induction fuel as [|fuel IH]; intros outs alt old cr ts;
    cbn [repeat_loop]; auto.
  match goal with |- context [if ?b then Res _ _ _ else _] => destruct b end; auto.
  destruct (r_out (p ts)) as [a r al1|e].
  - destruct (merge_alts alt al1). rewrite (H ts). cbn [app].
    match goal with |- context [if ?b then Res _ _ _ else _] => destruct b end;
      [reflexivity|apply IH].
  - destruct (_ <? _).
    + simpl. apply H.
    + now destruct (merge_alts alt (Some e)).
Qed.
Lemma quiet_repeat {A} al am (p : parser A) : quiet p -> quiet (p_repeat al am p).
Proof. intros H ts. now apply quiet_repeat_loop. Qed.
Lemma quiet_repeated {A} (p : parser A) : quiet p -> quiet (p_repeated p).
Proof. apply quiet_repeat. Qed.
Lemma quiet_until {A} (p : parser A) : quiet p -> forall ts alt outs cr,
  r_errs (until_loop p alt outs cr ts) = [].
Proof.
  intros H. induction ts as [|[c s] ts IH]; intros alt outs cr; cbn [until_loop];
    match goal with |- context [p ?t] =>
      destruct (r_out (p t)) as [x r al1|e] eqn:Q end.
  1, 3: destruct (merge_alts alt al1); simpl; auto.
  - simpl; auto.
  - destruct (merge_alts alt (Some e)). apply IH.
Qed.
Lemma quiet_take_until {A} (p : parser A) : quiet p -> quiet (p_take_until p).
Proof. intros H ts. now apply quiet_until. Qed.

Ltac quiets :=
  lazymatch goal with
  | |- quiet (p_just _) => apply quiet_just
  | |- quiet (p_filter _) => apply quiet_filter
  | |- quiet (p_none_of _) => apply quiet_filter
  | |- quiet (p_filter_map _) => apply quiet_filter_map
  | |- quiet (p_just_str _) => apply quiet_just_str
  | |- quiet p_end => apply quiet_end
  | |- quiet (p_map _ _) => apply quiet_map; quiets
  | |- quiet (p_ignored _) => apply quiet_ignored; quiets
  | |- quiet (p_map_with_span _ _) => apply quiet_map_with_span; quiets
  | |- quiet (p_map_err _ _) => apply quiet_map_err; quiets
  | |- quiet (p_try_map _ _) => apply quiet_try_map; quiets
  | |- quiet (p_map_err_with_span _ _) => apply quiet_map_err_with_span; quiets
  | |- quiet (p_bind _ _) => apply quiet_bind; [|intros ?]; quiets
  | |- quiet (p_then _ _) => apply quiet_then; quiets
  | |- quiet (p_ignore_then _ _) => apply quiet_ignore_then; quiets
  | |- quiet (p_then_ignore _ _) => apply quiet_then_ignore; quiets
  | |- quiet (p_delimited _ _ _) => apply quiet_delimited; quiets
  | |- quiet (p_or _ _) => apply quiet_or; quiets
  | |- quiet (p_choice _) => apply quiet_choice; foralls; quiets
  | |- quiet (p_or_not _) => apply quiet_or_not; quiets
  | |- quiet (p_rewind _) => apply quiet_rewind; quiets
  | |- quiet (p_repeated _) => apply quiet_repeated; quiets
  | |- quiet (p_repeat _ _ _) => apply quiet_repeat; quiets
  | |- quiet (p_exactly _ _) => apply quiet_repeat; quiets
  | |- quiet (p_take_until _) => apply quiet_take_until; quiets
  | |- _ => auto
  end.

Lemma quiet_begin_comment c : quiet (begin_comment c).
Proof. unfold begin_comment. quiets. Qed.
Lemma quiet_newline : quiet newline.
Proof. unfold newline. quiets. Qed.
Lemma quiet_ml_rec fuel : quiet (@ml_comment_rec Sp E fuel).
Proof.
  induction fuel as [|fuel IH]; cbn [ml_comment_rec].
  - now intros ts.
  - unfold ml_body. quiets. apply quiet_begin_comment.
Qed.
Lemma quiet_ml_comment : quiet ml_comment.
Proof. intros ts. apply quiet_map_err_with_span, quiet_ml_rec. Qed.
Lemma quiet_ws : quiet ws.
Proof. unfold ws, ws_char. quiets. apply quiet_ml_comment. Qed.
Lemma quiet_comment : quiet comment.
Proof. unfold comment. quiets; auto using quiet_begin_comment, quiet_newline. Qed.
Lemma quiet_esc_line : quiet esc_line.
Proof. unfold esc_line. quiets; auto using quiet_ws, quiet_comment, quiet_newline. Qed.
Lemma quiet_node_space : quiet node_space.
Proof. unfold node_space. quiets; auto using quiet_ws, quiet_esc_line. Qed.
Lemma quiet_line_space : quiet line_space.
Proof. unfold line_space. quiets; auto using quiet_ws, quiet_comment, quiet_newline. Qed.
Lemma quiet_node_terminator : quiet node_terminator.
Proof. unfold node_terminator. quiets; auto using quiet_comment, quiet_newline. Qed.
Lemma quiet_raw_string : quiet raw_string.
Proof. unfold raw_string. quiets. Qed.
Lemma quiet_radix_number : quiet radix_number.
Proof. unfold radix_number, opt_sign, radix_digits, digit, digits. quiets. Qed.
Lemma quiet_decimal_number : quiet decimal_number.
Proof.
  unfold decimal_number, opt_sign, fraction, exponent, opt_sign, digit, digits.
  quiets.
Qed.
Lemma quiet_number : quiet number.
Proof. unfold number. quiets; auto using quiet_radix_number, quiet_decimal_number. Qed.
Lemma quiet_bare_ident : quiet bare_ident.
Proof.
  unfold bare_ident, plus_minus, id_sans_dig, id_char, id_sans_sign_dig. quiets.
Qed.
Lemma quiet_keyword : quiet keyword.
Proof. unfold keyword, keyword1. quiets. Qed.

(** ** First characters *)

Definition is_nl (c : char) : bool :=
  ((c =? 0x0A) || (c =? 0x0D) || (c =? 0x0C) || (c =? 0x85) || (c =? 0x2028)
   || (c =? 0x2029))%N.
Definition f_ws (c : char) : bool := is_ws_char c || (c =? 0x2F)%N.
Definition f_ns (c : char) : bool := f_ws c || (c =? 0x5C)%N.
Definition f_str (c : char) : bool := ((c =? 0x72) || (c =? 0x22))%N.
Definition f_num (c : char) : bool := ((c =? 0x2D) || (c =? 0x2B))%N || is_digit 10 c.
Definition f_bare (c : char) : bool :=
  ((c =? 0x2D) || (c =? 0x2B))%N || is_id_sans_sign_dig c.
Definition f_kw (c : char) : bool := ((c =? 0x6E) || (c =? 0x74) || (c =? 0x66))%N.
Definition f_lit (c : char) : bool := f_str c || f_kw c || f_num c.
Definition f_ident (c : char) : bool := f_num c || f_bare c || f_str c.
Definition f_term (c : char) : bool := is_nl c || ((c =? 0x2F) || (c =? 0x3B))%N.

Ltac rejs :=
  lazymatch goal with
  | |- rej _ (p_just _) => apply rej_just
  | |- rej _ (p_filter _) => apply rej_filter
  | |- rej _ (p_just_str _) => apply rej_just_str
  | |- rej _ (p_map _ _) => apply rej_map; rejs
  | |- rej _ (p_ignored _) => apply rej_ignored; rejs
  | |- rej _ (p_spanned _) => apply rej_spanned; rejs
  | |- rej _ (p_map_err _ _) => apply rej_map_err; [auto with safe | rejs]
  | |- rej _ (p_try_map _ _) => apply rej_try_map; rejs
  | |- rej _ (p_validate _ _) => apply rej_validate; rejs
  | |- rej _ (p_bind _ _) => apply rej_bind; rejs
  | |- rej _ (p_then (p_or_not _) _) => eapply rej_opt_then; rejs
  | |- rej _ (p_then _ _) => apply rej_then; rejs
  | |- rej _ (p_ignore_then (p_or_not _) _) =>
      apply rej_map; eapply rej_opt_then; rejs
  | |- rej _ (p_ignore_then _ _) => apply rej_ignore_then; rejs
  | |- rej _ (p_then_ignore (p_or_not _) _) =>
      apply rej_map; eapply rej_opt_then; rejs
  | |- rej _ (p_then_ignore _ _) => apply rej_then_ignore; rejs
  | |- rej _ (p_delimited _ _ _) => apply rej_delimited; rejs
  | |- rej _ (p_or _ _) => eapply rej_or; rejs
  | |- rej _ (p_repeat 1 _ _) => apply rej_repeat1; [simpl; auto | rejs]
  | |- _ => eauto with rej
  end.

Ltac rejw := eapply rej_weaken; [rejs | by_chars].

Lemma rej_begin_comment c : rej (fun x => (x =? 0x2F)%N) (begin_comment c).
Proof. unfold begin_comment. rejs. Qed.
Hint Resolve rej_begin_comment : rej.

Lemma rej_newline : rej is_nl newline.
Proof. unfold newline, is_nl. rejw. Qed.
Hint Resolve rej_newline : rej.

Lemma rej_ws_char : rej is_ws_char ws_char.
Proof. unfold ws_char. rejs. Qed.
Hint Resolve rej_ws_char : rej.

Lemma rej_ml_rec fuel : rej (fun x => (x =? 0x2F)%N) (@ml_comment_rec Sp E (S fuel)).
Proof. cbn [ml_comment_rec]. unfold ml_body. rejs. Qed.

Lemma rej_ml_comment : rej (fun x => (x =? 0x2F)%N) ml_comment.
Proof.
  intros ts. unfold ml_comment. apply rej_map_err_with_span; [|apply rej_ml_rec].
  intros e s M. unfold ml_comment_err.
  destruct (_ && _) eqn:Q; eauto.
  destruct e; simpl in *; try discriminate. eexists; split; reflexivity || exact I.
Qed.
Hint Resolve rej_ml_comment : rej.

Lemma rej_ws : rej f_ws ws.
Proof. unfold ws, f_ws. rejw. Qed.
Hint Resolve rej_ws : rej.

Lemma rej_comment : rej (fun x => (x =? 0x2F)%N) comment.
Proof. unfold comment. rejs. Qed.
Hint Resolve rej_comment : rej.

Lemma rej_esc_line : rej (fun x => (x =? 0x5C)%N) esc_line.
Proof. unfold esc_line. rejs. Qed.
Hint Resolve rej_esc_line : rej.

Lemma rej_node_space : rej f_ns node_space.
Proof. unfold node_space, f_ns. rejw. Qed.
Hint Resolve rej_node_space : rej.

Lemma rej_line_space : rej (fun x => is_nl x || f_ws x) line_space.
Proof.
  unfold line_space. eapply rej_weaken; [rejs|].
  intros c. unfold f_ws. rewrite ?orb_true_iff. tauto.
Qed.
Hint Resolve rej_line_space : rej.

Lemma rej_raw_string : rej (fun x => (x =? 0x72)%N) raw_string.
Proof. unfold raw_string. rejs. Qed.
Lemma rej_escaped_string : rej (fun x => (x =? 0x22)%N) escaped_string.
Proof. unfold escaped_string. rejs. Qed.
Hint Resolve rej_raw_string rej_escaped_string : rej.

Lemma rej_string : rej f_str string_.
Proof. unfold string_, f_str. rejw. Qed.
Hint Resolve rej_string : rej.

Lemma rej_plus_minus : rej (fun x => (x =? 0x2D) || (x =? 0x2B))%N plus_minus.
Proof. unfold plus_minus. rejw. Qed.
Hint Resolve rej_plus_minus : rej.

Lemma rej_bare_ident : rej f_bare bare_ident.
Proof.
  unfold bare_ident, f_bare. apply rej_try_map, rej_choice; [discriminate|]. foralls.
  - rejw.
  - apply rej_weaken with (fun x => (x =? 0x2D) || (x =? 0x2B))%N.
    + unfold p_exactly. rejs.
    + by_chars.
  - unfold id_sans_sign_dig. rejw.
Qed.
Hint Resolve rej_bare_ident : rej.

Lemma rej_opt_sign_then {B} f (q : parser B) : rej f q ->
  rej (fun c => ((c =? 0x2D) || (c =? 0x2B))%N || f c) (p_then opt_sign q).
Proof. intros. unfold opt_sign. rejw. Qed.

Lemma rej_decimal : rej f_num decimal_number.
Proof.
  unfold decimal_number, f_num.
  apply rej_map, rej_map, rej_then, rej_map, rej_then, rej_map, rej_then, rej_map.
  apply rej_opt_sign_then. unfold digit. rejs.
Qed.

Lemma rej_radix : rej f_num radix_number.
Proof.
  unfold radix_number. apply rej_map, rej_then, rej_map.
  eapply rej_weaken; [apply rej_opt_sign_then; rejs|].
  intros c. unfold f_num. rewrite !orb_true_iff. intros [H|H]; auto.
  right. apply N.eqb_eq in H. now subst.
Qed.
Hint Resolve rej_decimal rej_radix : rej.

Lemma rej_number : rej f_num number.
Proof. unfold number. rejw. Qed.
Hint Resolve rej_number : rej.

Lemma rej_keyword : rej f_kw keyword.
Proof.
  unfold keyword, keyword1, f_kw. apply rej_choice; [discriminate|].
  foralls; cbn [str]; rejw.
Qed.
Hint Resolve rej_keyword : rej.

Lemma rej_literal : rej f_lit literal_.
Proof.
  unfold literal_, f_lit. apply rej_choice; [discriminate|]. foralls; rejw.
Qed.
Hint Resolve rej_literal : rej.

Lemma rej_ident : rej f_ident ident.
Proof.
  unfold ident, f_ident. apply rej_try_map, rej_choice; [discriminate|].
  foralls; rejw.
Qed.
Hint Resolve rej_ident : rej.

Lemma rej_type_name : rej (fun x => (x =? 0x28)%N) type_name.
Proof. unfold type_name. rejs. Qed.
Hint Resolve rej_type_name : rej.

Lemma rej_type_name_value : rej (fun x => (x =? 0x28)%N) type_name_value.
Proof. unfold type_name_value. rejs. Qed.
Hint Resolve rej_type_name_value : rej.

Definition f_item (c : char) : bool := f_lit c || f_bare c || (c =? 0x28)%N.

Lemma rej_prop_or_arg_inner : rej f_item prop_or_arg_inner.
Proof.
  unfold prop_or_arg_inner, f_item. apply rej_choice; [discriminate|]. foralls; rejw.
Qed.
Hint Resolve rej_prop_or_arg_inner : rej.

Definition f_poa (c : char) : bool := f_item c || (c =? 0x2F)%N.

Lemma rej_prop_or_arg : rej f_poa prop_or_arg.
Proof. unfold prop_or_arg, f_poa. rejw. Qed.
Hint Resolve rej_prop_or_arg : rej.

Lemma rej_braced (nodes : parser (list (snode Sp))) :
  rej (fun x => (x =? 0x7B)%N) (braced_nodes nodes).
Proof. unfold braced_nodes. rejs. Qed.
Hint Resolve rej_braced : rej.

(** A slash, then another given character. *)
Definition sl (x : char) (ts : toks) : bool :=
  match ts with
  | (a, _) :: (b, _) :: _ => ((a =? 0x2F) && (b =? x))%N
  | _ => false
  end.

Lemma begin_comment_yes x ts : sl x ts = true ->
  begin_comment x ts = Res [] (Ok tt (skipn 2 ts) None) [].
Proof.
  destruct ts as [|[a s] [|[b s'] ts]]; try discriminate. simpl.
  intros H. apply andb_prop in H as [H1 H2].
  unfold begin_comment, p_ignore_then, p_then, p_bind, p_map, p_map_err, p_ignored,
    p_map, p_just. rewrite H1. simpl. rewrite H2. reflexivity.
Qed.

Lemma begin_comment_no x ts : sl x ts = false ->
  exists e, begin_comment x ts = Res [] (Err e) [] /\ mergeable (l_err e)
    /\ l_rem e <= len ts <= l_rem e + 1.
Proof.
  intros H. destruct (hd (fun x => (x =? 0x2F)%N) ts) eqn:Q.
  - destruct ts as [|[a s] ts]; [discriminate|]. simpl in Q.
    unfold begin_comment, p_ignore_then, p_then, p_bind, p_map, p_map_err, p_ignored,
      p_map, p_just. rewrite Q. simpl in H.
    destruct ts as [|[b s'] ts]; simpl.
    + eexists. repeat split; simpl; auto.
    + simpl in H. rewrite Q in H. simpl in H. rewrite H.
      eexists. repeat split; simpl; auto. lia.
  - destruct (rej_begin_comment x ts Q) as [e [R M]].
    rewrite R. eexists. repeat split; simpl; auto. lia.
Qed.

Lemma begin_comment_ok x ts a rest alt :
  r_out (begin_comment x ts) = Ok a rest alt -> sl x ts = true.
Proof.
  intros Q. destruct (sl x ts) eqn:S; auto.
  destruct (begin_comment_no x ts S) as [e [R _]]. rewrite R in Q. discriminate.
Qed.

Lemma enear_begin_comment x F : enear 1 F (begin_comment x).
Proof.
  intros ts e Q _. destruct (sl x ts) eqn:S.
  - rewrite (begin_comment_yes x ts S) in Q. discriminate.
  - destruct (begin_comment_no x ts S) as (e' & R & _ & L). rewrite R in Q.
    simpl in Q. inversion Q; subst. lia.
Qed.

Lemma noalt_begin_comment x : noalt (begin_comment x).
Proof.
  unfold begin_comment.
  apply noalt_ignore_then; [apply noalt_map_err|apply noalt_ignored]; apply noalt_just.
Qed.

Lemma sl_excl x y ts : sl x ts = true -> x <> y -> sl y ts = false.
Proof.
  destruct ts as [|[a s] [|[b s'] ts]]; try discriminate. simpl.
  rewrite andb_true_iff, andb_false_iff, !N.eqb_eq, !N.eqb_neq. intros [-> ->]. auto.
Qed.

Lemma sl_hd x ts : hd (fun c => (c =? 0x2F)%N) ts = false -> sl x ts = false.
Proof.
  destruct ts as [|[a s] [|[b s'] ts]]; auto. simpl. now intros ->.
Qed.

(** ** Distances *)

Lemma enear_just x F : enear 0 F (p_just x).
Proof.
  intros [|[c s] ts] e; simpl; intros X _.
  - lia.
  - destruct (N.eqb c x); simpl in X; inversion X; subst; simpl; lia.
Qed.
Lemma enear_filter f F : enear 0 F (p_filter f).
Proof.
  intros [|[c s] ts] e; simpl; intros X _.
  - lia.
  - destruct (f c); simpl in X; inversion X; subst; simpl; lia.
Qed.
Lemma enear_filter_map {A} (f : Sp -> char -> A + perror Sp) F :
  enear 0 F (p_filter_map f).
Proof.
  intros [|[c s] ts] e; simpl; intros X _.
  - lia.
  - destruct (f s c); simpl in X; inversion X; subst; simpl; lia.
Qed.

Lemma enear_up {A} k F (p : parser A) : enear 0 F p -> enear k F p.
Proof. intros. eapply enear_weaken; eauto. lia. Qed.
Lemma near_up {A} k F (p : parser A) : near 0 anyp p -> near k F p.
Proof. intros. eapply near_weaken; eauto; [lia|]. intros; exact I. Qed.
Lemma near_any {A} k F (p : parser A) : near k anyp p -> near k F p.
Proof. intros. eapply near_weaken; eauto. intros; exact I. Qed.

Lemma choice_from_near {A} k F (ps : list (parser A)) : Forall (enear k F) ps ->
  forall alt ts e, F ts -> within k ts alt ->
  r_out (p_choice_from alt ps ts) = Err e -> len ts <= l_rem e + k.
Proof.
  induction 1 as [|p ps Hp Hps IH]; intros alt ts e f W; cbn [p_choice_from].
  - destruct alt as [a|]; simpl; intros X; inversion X; subst; simpl in *; auto.
    destruct ts as [|[c s] ts]; simpl; lia.
  - destruct (r_out (p ts)) eqn:Q; [congruence|].
    destruct (merge_alts alt (Some e0)) as [m c] eqn:M. simpl.
    apply IH; auto. eapply merge_within; eauto. simpl. eauto.
Qed.
Lemma enear_choice {A} k F (ps : list (parser A)) :
  Forall (enear k F) ps -> enear k F (p_choice ps).
Proof.
  intros H ts e Q f. eapply (choice_from_near k F ps); eauto. exact I.
Qed.

(** Newlines. *)
Lemma near_crlf : near 0 anyp (p_ignore_then (p_or_not (p_just 0x0D%N)) (p_just 0x0A%N)).
Proof.
  apply near_ignore_then with (j := 1) (G := anyp).
  - apply near_or_not; [apply noalt_near, noalt_just|].
    apply enear_up, enear_just.
  - apply noalt_near, noalt_just.
  - apply eats_just.
  - intros; exact I.
Qed.
Lemma enear_crlf : enear 1 anyp (p_ignore_then (p_or_not (p_just 0x0D%N)) (p_just 0x0A%N)).
Proof.
  apply enear_map. apply enear_bind with (j := 1) (G := anyp); auto.
  - intros ts e. unfold p_or_not. destruct (r_out (p_just _ ts)); discriminate.
  - intros ts a r1 alt Q _. unfold p_or_not in Q.
    destruct ts as [|[c s] ts]; simpl in Q.
    + inversion Q; subst. simpl. repeat split; auto.
    + destruct (N.eqb c 0x0D%N); simpl in Q; inversion Q; subst; simpl;
        repeat split; lia || auto.
  - intros a. apply enear_just.
Qed.
Lemma near_newline : near 0 anyp newline.
Proof.
  unfold newline. apply near_map_err, near_ignored.
  assert (J : forall x, near 0 anyp (p_just x))
    by (intros; apply noalt_near, noalt_just).
  assert (EJ : forall x, enear 1 anyp (p_just x))
    by (intros; apply enear_up, enear_just).
  repeat match goal with
  | |- near _ _ (p_or _ _) => apply near_or_quiet with (j := 1)
  | |- near _ _ (p_just _) => apply J
  | |- near _ _ (p_ignore_then _ _) => apply near_crlf
  | |- quiet _ => quiets
  | |- eats 1 (p_just _) => apply eats_just
  | |- enear _ _ (p_or _ _) => apply enear_or
  | |- enear _ _ (p_just _) => apply EJ
  | |- enear _ _ (p_ignore_then _ _) => apply enear_crlf
  end.
Qed.
Lemma enear_newline : enear 1 anyp newline.
Proof.
  unfold newline. apply enear_map_err, enear_ignored.
  assert (EJ : forall x, enear 1 anyp (p_just x))
    by (intros; apply enear_up, enear_just).
  repeat match goal with
  | |- enear _ _ (p_or _ _) => apply enear_or
  | |- enear _ _ (p_just _) => apply EJ
  | |- enear _ _ (p_ignore_then _ _) => apply enear_crlf
  end.
Qed.

(** Whitespace and comments. *)
Lemma near_ml_rec fuel : near 0 anyp (@ml_comment_rec Sp E fuel)
  /\ enear 0 (fun ts => hd (fun x => (x =? 0x2F)%N) ts = false)
       (@ml_comment_rec Sp E fuel).
Proof.
  induction fuel as [|fuel [IH1 IH2]].
  { split.
    - intros ts a rest alt. discriminate.
    - intros ts e Q _. inversion Q; subst.
      destruct ts as [|[c s] ts]; simpl; lia. }
  split; [|apply rej_enear, rej_ml_rec].
  cbn [ml_comment_rec]. unfold ml_body, p_delimited.
  set (G := fun ts : toks => hd (fun x => (x =? 0x2A)%N) ts = true).
  apply near_then_ignore with (j := 2) (G := G).
  - apply near_ignore_then with (j := 0) (G := anyp).
    + apply noalt_near, noalt_begin_comment.
    + apply near_ignored, near_repeated.
      * apply near_choice. foralls.
        -- now apply near_up.
        -- apply noalt_near, noalt_ignored, noalt_filter.
        -- apply noalt_near, noalt_ignored, noalt_then_ignore; [apply noalt_just|].
           apply noalt_rewind, noalt_filter.
      * apply enear_choice. foralls.
        -- eapply enear_weaken; eauto; [lia|]. unfold G.
           intros [|[c s] ts]; simpl; auto. intros H. apply N.eqb_eq in H. now subst.
        -- apply enear_ignored, enear_up, enear_filter.
        -- apply enear_ignored, enear_map.
           apply enear_bind with (j := 1) (G := anyp); auto.
           ++ apply enear_up, enear_just.
           ++ intros ts a r1 alt Q _.
              destruct ts as [|[c s] ts]; simpl in Q; [discriminate|].
              destruct (N.eqb c 0x2A%N); simpl in Q; inversion Q; subst.
              simpl. repeat split; auto. lia.
           ++ intros _ ts e Q _. simpl in Q.
              destruct (r_out (p_none_of _ ts)) eqn:R; [discriminate|].
              inversion Q; subst. pose proof (enear_filter _ anyp _ _ R I). lia.
           ++ lia.
      * apply eats_choice. foralls; try eat1. apply eats_ml_rec.
    + apply eats_ignored, eats_repeated0, eats_choice. foralls; try eat1.
      apply eats_ml_rec.
    + intros; exact I.
  - apply noalt_near, noalt_just_str.
  - apply (eats_just_str (str "*/")).
  - intros b r1 rest alt Q _. unfold G. eapply rej_no; [|exact Q].
    apply rej_just_str.
Qed.

Lemma near_ml_comment : near 0 anyp ml_comment.
Proof.
  intros ts. apply near_map_err_with_span. apply near_ml_rec.
Qed.

Lemma enear_ml_comment : enear 1 (fun ts => sl 0x2A%N ts = false) ml_comment.
Proof.
  intros ts. unfold ml_comment.
  refine (enear_map_err_with_span 1 (fun ts => sl 0x2A%N ts = false) _ _ _ ts).
  intros ts1 e Q S. cbn [ml_comment_rec] in Q. unfold ml_body in Q.
  unfold p_delimited in Q. apply map_err_inv in Q.
  apply bind_err in Q as [Q|(a & r1 & alt1 & e2 & c & Q & _)].
  - apply map_err_inv in Q.
    apply bind_err in Q as [Q|(a & r1 & alt1 & e2 & c & Q & _)].
    + exact (enear_begin_comment _ anyp _ _ Q I).
    + apply begin_comment_ok in Q. congruence.
  - apply map_ok in Q as [b [Q _]].
    apply bind_ok in Q as (x & y & r2 & a1 & a2 & c' & Q & _).
    apply begin_comment_ok in Q. congruence.
Qed.

Lemma near_ws_chars : near 0 anyp (p_ignored (p_repeat 1 None ws_char)).
Proof.
  apply near_ignored, near_repeat.
  - apply noalt_near, noalt_ignored, noalt_filter.
  - apply enear_ignored, enear_filter.
  - apply eats_ws_char.
Qed.
Lemma repeat1_enear {A} k F am (p : parser A) :
  match am with Some m => 1 <= m | None => True end ->
  enear k F p -> eats 1 p -> enear k F (p_repeat 1 am p).
Proof.
  intros Am He Ht ts e Q f. unfold p_repeat in Q.
  assert (N : forall fuel errs o outs alt old cr ts e,
    r_out (repeat_loop fuel p 1 am errs (o :: outs) alt old cr ts) <> Err e).
  { clear. induction fuel as [|fuel IH]; intros; cbn [repeat_loop]; [discriminate|].
    match goal with |- context [if ?b then Res _ _ _ else _] => destruct b end;
      [discriminate|].
    destruct (r_out (p ts)) as [a r al1|e1].
    - destruct (merge_alts alt al1).
      match goal with |- context [if ?b then Res _ _ _ else _] => destruct b end;
        [discriminate|apply IH].
    - cbn [List.length Nat.ltb Nat.leb]. destruct (merge_alts alt (Some e1)).
      discriminate. }
  change (3 + len ts) with (S (2 + len ts)) in Q.
  generalize dependent (2 + len ts). intros fuel Q. cbn [repeat_loop] in Q.
  destruct am as [[|m]|]; [lia| |]; cbn [List.length Nat.leb] in Q;
    destruct (r_out (p ts)) as [a r al1|e1] eqn:P;
    try (simpl in Q; inversion Q; subst; eauto; fail);
    destruct (merge_alts None al1); apply N in Q; contradiction.
Qed.
Lemma near_ws : near 0 anyp ws.
Proof.
  unfold ws. apply near_map_err. apply near_or_quiet with (j := 1).
  - apply near_ws_chars.
  - apply near_ml_comment.
  - unfold ws_char. quiets.
  - auto with safe.
  - apply enear_ignored, repeat1_enear; auto with safe.
    apply enear_up, enear_ignored, enear_filter.
Qed.
Lemma enear_ws : enear 1 (fun ts => sl 0x2A%N ts = false) ws.
Proof.
  unfold ws. apply enear_map_err, enear_or; [|apply enear_ml_comment].
  apply enear_ignored, repeat1_enear; auto with safe.
  apply enear_up, enear_ignored, enear_filter.
Qed.

Lemma near_nl_end : near 0 anyp (p_or newline p_end).
Proof.
  apply near_or.
  - apply near_newline.
  - apply noalt_near, noalt_end.
  - intros [|x ts] e b rest alt _ Q _; simpl in Q; inversion Q; subst. simpl. lia.
  - intros ts a rest alt N. now rewrite quiet_newline in N.
Qed.
Lemma near_comment : near 0 anyp comment.
Proof.
  unfold comment. apply near_ignored, near_then with (j := 0) (G := anyp).
  - apply noalt_near, noalt_begin_comment.
  - apply near_take_until with (j := 0) (i := 1); auto with safe.
    + apply near_nl_end.
    + apply enear_or; [apply enear_newline|].
      intros [|x ts] e; simpl; intros X _; inversion X; subst.
      unfold unexpected. destruct x. simpl. lia.
    + apply eats_or; [eapply eats_le; [apply eats_newline|lia]|].
      apply eats0. auto with safe.
  - apply eats0. auto with safe.
  - intros; exact I.
Qed.

Lemma until_end_ok (ts : toks) : forall alt outs cr e,
  r_out (until_loop (p_or newline p_end) alt outs cr ts) <> Err e.
Proof.
  induction ts as [|[ch sp] ts IH]; intros alt outs cr e; cbn [until_loop];
    match goal with |- context [p_or ?a ?b ?t] =>
      destruct (r_out (p_or a b t)) as [x r al1|e1] eqn:Q end.
  1, 3: destruct (merge_alts alt al1); discriminate.
  - exfalso. vm_compute in Q. discriminate Q.
  - destruct (merge_alts alt (Some e1)). apply IH.
Qed.

Lemma enear_comment F : enear 1 F comment.
Proof.
  intros ts e Q _. unfold comment in Q. apply map_err_inv in Q.
  apply bind_err in Q as [Q|(a & r1 & alt1 & e2 & c & Q & R & _)].
  - exact (enear_begin_comment _ anyp _ _ Q I).
  - exfalso. revert R. apply until_end_ok.
Qed.

Lemma comment_ok_sl ts a rest alt : r_out (comment ts) = Ok a rest alt ->
  sl 0x2F%N ts = true.
Proof.
  intros Q. apply map_ok in Q as [x [Q _]].
  apply bind_ok in Q as (a1 & b1 & r1 & alt1 & alt2 & c & Q & _).
  eapply begin_comment_ok; eauto.
Qed.

Lemma or_ok {A} (p q : parser A) ts a rest alt :
  r_out (p_or p q ts) = Ok a rest alt ->
  (exists alt1, r_out (p ts) = Ok a rest alt1)
  \/ (exists alt1, r_out (q ts) = Ok a rest alt1).
Proof.
  intros R.
  destruct (p_or_cases p q ts) as
    [(a' & rest' & alt' & He & Ho & X)
    |[D [(a' & rest' & alt1 & alt' & c & Ho & He & M & X)
        |[(a' & rest' & alt1 & alt' & c & Ho & M & X)
         |(ea & eb & Ha & Hb & [[X _]|[[X _]|(e & c & M & Le & X)]])]]]];
  rewrite X in R; simpl in R; try discriminate.
  - left. eauto.
  - inversion R; subst. left. eauto.
  - inversion R; subst. right. eauto.
Qed.

Lemma nl_not_slash c : is_nl c = true -> (c =? 0x2F)%N = false.
Proof. unfold is_nl. lia. Qed.

Lemma near_nl_comment : near 0 anyp (p_or comment newline).
Proof.
  apply near_or_quiet with (j := 1); auto with safe.
  - apply near_comment.
  - apply near_newline.
  - apply quiet_comment.
  - apply enear_comment.
Qed.

Lemma near_esc_line : near 0 anyp esc_line.
Proof.
  unfold esc_line.
  apply near_ignore_then with (j := 1) (G := fun ts => sl 0x2A%N ts = false).
  - apply near_ignore_then with (j := 0) (G := anyp).
    + apply noalt_near, noalt_just.
    + apply near_repeated; auto with safe.
      * apply near_up, near_ws.
      * apply enear_ws.
    + apply eats0. auto with safe.
    + intros; exact I.
  - apply near_nl_comment.
  - eat1.
  - intros b r1 rest alt Q _. apply or_ok in Q as [[alt1 Q]|[alt1 Q]].
    + apply comment_ok_sl in Q. apply (sl_excl _ _ _ Q). discriminate.
    + apply (rej_no _ _ _ _ _ _ rej_newline) in Q. apply sl_hd.
      destruct r1 as [|[c s] r1]; auto. simpl in *. now apply nl_not_slash.
Qed.

Lemma near_node_space : near 0 anyp node_space.
Proof.
  unfold node_space. apply near_or.
  - apply near_ws.
  - apply near_esc_line.
  - intros ts e b rest alt P Q _.
    pose proof (rej_no _ _ _ _ _ _ rej_esc_line Q) as H.
    destruct ts as [|[c s] ts]; [discriminate|]. simpl in H.
    apply N.eqb_eq in H. subst.
    pose proof (rej_enear _ _ rej_ws _ _ P eq_refl).
    apply eats_esc_line in Q. lia.
  - intros ts a rest alt N. now rewrite quiet_ws in N.
Qed.

(** Where a space cannot have failed far away. *)
Definition ns_calm (ts : toks) : Prop :=
  sl 0x2A%N ts = false /\ hd (fun c => (c =? 0x5C)%N) ts = false.

Lemma enear_node_space : enear 1 ns_calm node_space.
Proof.
  unfold node_space. apply enear_or.
  - eapply enear_weaken; [apply enear_ws|lia|]. now intros ts [H _].
  - eapply enear_weaken; [apply rej_enear, rej_esc_line|lia|]. now intros ts [_ H].
Qed.

Lemma near_node_spaces : near 1 ns_calm (p_repeated node_space).
Proof.
  apply near_repeated; auto with safe.
  - apply near_up, near_node_space.
  - apply enear_node_space.
Qed.

Lemma near_node_spaces1 : near 1 ns_calm (p_repeat 1 None node_space).
Proof.
  apply near_repeat; auto with safe.
  - apply near_up, near_node_space.
  - apply enear_node_space.
Qed.

Lemma enear_line_space : enear 1 (fun ts => sl 0x2A%N ts = false) line_space.
Proof.
  unfold line_space. apply enear_or; [apply enear_or|].
  - eapply enear_weaken; [apply enear_newline|lia|]. intros; exact I.
  - apply enear_ws.
  - apply enear_comment.
Qed.
Lemma near_line_space : near 0 anyp line_space.
Proof.
  unfold line_space. apply near_or.
  - apply near_or_quiet with (j := 1); auto with safe.
    + apply near_newline.
    + apply near_ws.
    + apply quiet_newline.
    + apply enear_newline.
  - apply near_comment.
  - intros ts e b rest alt P Q _.
    assert (L : len ts <= l_rem e + 1).
    { assert (H : enear 1 (fun ts => sl 0x2A%N ts = false) (p_or newline ws)).
      { apply enear_or; [|apply enear_ws].
        eapply enear_weaken; [apply enear_newline|lia|]. intros; exact I. }
      apply (H _ _ P). apply comment_ok_sl in Q.
      apply (sl_excl _ _ _ Q). discriminate. }
    apply eats_comment in Q. lia.
  - intros ts a rest alt N. exfalso. apply N. revert ts a rest alt N.
    intros ts _ _ _ _. pose proof quiet_newline. pose proof quiet_ws.
    enough (Z : quiet (p_or newline ws)) by apply Z. quiets.
Qed.
Lemma near_line_spaces : near 1 (fun ts => sl 0x2A%N ts = false) (p_repeated line_space).
Proof.
  apply near_repeated; auto with safe.
  - apply near_up, near_line_space.
  - apply enear_line_space.
Qed.

(** Strings. *)
Lemma just_len x (ts : toks) a rest alt : r_out (p_just x ts) = Ok a rest alt ->
  len ts = S (len rest).
Proof.
  destruct ts as [|[c s] ts]; simpl; [discriminate|].
  destruct (N.eqb c x); simpl; intros X; inversion X; subst; auto.
Qed.

Lemma exactly_loop x n : forall fuel errs outs alt old cr (ts : toks),
  List.length outs <= n -> 3 + len ts <= fuel ->
  match old with Some o => o = len ts | None => True end ->
  match r_out (repeat_loop fuel (p_just x) n (Some n) errs outs alt old cr ts) with
  | Ok _ rest _ => len rest + (n - List.length outs) <= len ts
  | Err e => len ts <= l_rem e + (n - List.length outs)
  end.
Proof.
  induction fuel as [|fuel IH]; intros errs outs alt old cr ts L Lf Ho;
    cbn [repeat_loop].
  - lia.
  - destruct (Nat.leb_spec n (List.length outs)).
    { simpl. lia. }
    destruct (r_out (p_just x ts)) as [a r al1|e] eqn:Q.
    + destruct (merge_alts alt al1).
      pose proof (just_len _ _ _ _ _ Q) as J.
      replace (match old with Some o => o =? len r | None => false end) with false.
      * specialize (IH (errs ++ r_errs (p_just x ts)) (a :: outs) o (Some (len r))
          (cr ++ r_crash (p_just x ts) ++ l) r).
        cbn [List.length] in IH.
        destruct (r_out (repeat_loop _ _ _ _ _ _ _ _ _ _)); lia.
      * destruct old; auto. symmetry. apply Nat.eqb_neq. lia.
    + apply Nat.ltb_lt in H. rewrite H. simpl.
      pose proof (enear_just _ anyp _ _ Q I). lia.
Qed.

Lemma near_raw_string : near 0 anyp raw_string.
Proof.
  unfold raw_string. apply near_map, near_bind with (j := 0) (G := anyp).
  - apply near_then_ignore with (j := 1) (G := anyp).
    + apply near_ignore_then with (j := 0) (G := anyp).
      * apply noalt_near, noalt_just.
      * apply near_map, near_repeated.
        -- apply noalt_near, noalt_just.
        -- apply enear_up, enear_just.
        -- apply eats_just.
      * apply eats0, S_map, S_repeated; auto with safe. apply eats_just.
      * intros; exact I.
    + apply noalt_near, noalt_just.
    + apply eats_just.
    + intros; exact I.
  - intros n. apply near_map_err_with_span.
    apply near_take_until with (j := S n) (i := S n); [| | |lia].
    + apply near_ignore_then with (j := 0) (G := anyp).
      * apply noalt_near, noalt_just.
      * apply near_ignored, near_repeat.
        -- apply noalt_near, noalt_just.
        -- apply enear_just.
        -- apply eats_just.
      * apply eats0, S_ignored, S_exactly; auto with safe. apply eats_just.
      * intros; exact I.
    + apply enear_map, enear_bind with (j := 1) (G := anyp); [| | |lia].
      * apply enear_up, enear_just.
      * intros ts a r1 alt Q _. pose proof (noalt_just _ _ _ _ _ Q) as ->.
        apply just_len in Q. simpl. repeat split; lia || auto.
      * intros _. apply enear_ignored. intros ts e Q _.
        unfold p_exactly, p_repeat in Q.
        pose proof (exactly_loop 0x23%N n (3 + len ts) [] [] None None [] ts) as X.
        rewrite Q in X. simpl in X. lia.
    + apply (eats_ignore_then 1 n); [apply eats_just|]. apply eats_ignored.
      intros ts a rest alt Q. unfold p_exactly, p_repeat in Q.
      pose proof (exactly_loop 0x23%N n (3 + len ts) [] [] None None [] ts) as X.
      rewrite Q in X. simpl in X. lia.
  - intros n. apply eats0. intros m. apply safe_map_err_with_span.
    + intros e s M. unfold raw_string_err. destruct (is_eoi_error e) eqn:Q; eauto.
      destruct e; simpl in *; try discriminate. eexists; split; reflexivity || exact I.
    + apply S_take_until, S_ignore_then; auto with safe.
      apply S_ignored, S_exactly; auto with safe. apply eats_just.
  - intros; exact I.
Qed.

Lemma near_recover {A} k F f (x : A) (p : parser A) :
  near k F p -> near k F (p_recover_skip_until f x p).
Proof.
  intros H ts a rest alt. unfold p_recover_skip_until.
  destruct (r_out (p ts)) eqn:Q.
  - rewrite Q. intros X; inversion X; subst. eauto.
  - destruct (skip_to f ts); simpl.
    + intros X; inversion X; subst. intros; exact I.
    + rewrite Q. discriminate.
Qed.

Lemma eats_recover {A} f (x : A) (p : parser A) : eats 0 p -> eats 0 (p_recover_skip_until f x p).
Proof.
  intros H ts a rest alt Q. unfold p_recover_skip_until in Q.
  destruct (r_out (p ts)) as [y r al1|e] eqn:R.
  - rewrite R in Q. inversion Q; subst. eapply H; eauto.
  - destruct (skip_to f ts) as [r|] eqn:K.
    + simpl in Q. inversion Q; subst. apply skip_to_suffix in K.
      apply suffix_len in K. lia.
    + rewrite R in Q. discriminate.
Qed.

Lemma eats_unicode : eats 0 (p_recover_skip_until esc_stop 0%N
        (p_try_map esc_code
          (p_delimited (p_repeat 1 (Some 6) (p_filter_map esc_hex))
                       (p_just 0x7B%N) (p_just 0x7D%N)))).
Proof.
  apply eats_recover, eats_try_map, eats0, S_delimited; auto with safe.
  apply S_repeat; [apply S_esc_hex|apply eats_filter_map].
Qed.

Lemma near_esc_char : near 0 anyp esc_char.
Proof.
  unfold esc_char. apply near_or_quiet with (j := 1).
  - apply noalt_near, noalt_filter_map.
  - apply near_map, near_bind with (j := 0) (G := anyp).
    + apply noalt_near, noalt_just.
    + intros _. apply near_recover, near_try_map. unfold p_delimited.
      apply near_then_ignore with (j := 1) (G := anyp).
      * apply near_ignore_then with (j := 0) (G := anyp).
        -- apply noalt_near, noalt_just.
        -- apply near_repeat.
           ++ apply noalt_near, noalt_filter_map.
           ++ apply enear_up, enear_filter_map.
           ++ apply eats_filter_map.
        -- apply eats0, S_repeat; [apply S_esc_hex|apply eats_filter_map].
        -- intros; exact I.
      * apply noalt_near, noalt_just.
      * apply eats_just.
      * intros; exact I.
    + intros _. apply eats_unicode.
    + intros; exact I.
  - apply quiet_filter_map.
  - apply (eats_ignore_then 1 0); [apply eats_just|apply eats_unicode].
  - apply enear_up, enear_filter_map.
Qed.

Lemma hd_excl (f g : char -> bool) (ts : toks) : hd f ts = true ->
  (forall c, f c = true -> g c = false) -> hd g ts = false.
Proof. destruct ts as [|[c s] ts]; simpl; auto. Qed.

Lemma near_string_item : near 1 anyp
  (p_or (p_filter (fun c => negb (c =? 0x22)%N && negb (c =? 0x5C)%N))
        (p_ignore_then (p_just 0x5C%N) esc_char)).
Proof.
  apply near_or_quiet with (j := 0).
  - apply noalt_near, noalt_filter.
  - apply near_ignore_then with (j := 0) (G := anyp).
    + apply noalt_near, noalt_just.
    + apply near_up, near_esc_char.
    + auto with safe.
    + intros; exact I.
  - apply quiet_filter.
  - apply eats0. auto with safe.
  - apply enear_up, enear_filter.
Qed.

Lemma near_escaped_string : near 0 anyp escaped_string.
Proof.
  unfold escaped_string.
  assert (S0 : Safe (p_repeated
     (p_or (p_filter (fun c => negb (c =? 0x22)%N && negb (c =? 0x5C)%N))
        (p_ignore_then (p_just 0x5C%N) esc_char)))).
  { apply S_repeated; [auto with safe|]. eat1. }
  apply near_ignore_then with (j := 0) (G := anyp).
  - apply noalt_near, noalt_just.
  - apply near_map_err_with_span.
    apply near_then_ignore with (j := 1)
      (G := fun ts => hd (fun c => (c =? 0x22)%N) ts = true).
    + apply near_repeated.
      * apply near_string_item.
      * apply enear_or.
        -- apply enear_up, enear_filter.
        -- eapply enear_weaken; [apply rej_enear, rej_ignore_then, rej_just|lia|].
           intros ts H. apply (hd_excl _ _ _ H). intros c. lia.
      * eat1.
    + apply noalt_near, noalt_just.
    + apply eats_just.
    + intros b r1 rest alt Q _. eapply rej_no; [apply rej_just|exact Q].
  - apply eats_map_err_with_span, eats0. auto with safe.
  - intros; exact I.
Qed.

Lemma near_string : near 0 anyp string_.
Proof.
  unfold string_. apply near_or.
  - apply near_raw_string.
  - apply near_escaped_string.
  - intros ts e b rest alt P Q _.
    pose proof (rej_no _ _ _ _ _ _ rej_escaped_string Q) as H.
    assert (H1 : hd (fun x => (x =? 0x72)%N) ts = false)
      by (apply (hd_excl _ _ _ H); intros c; lia).
    pose proof (rej_enear _ _ rej_raw_string _ _ P H1).
    apply eats_escaped_string in Q. lia.
  - intros ts a rest alt N. now rewrite quiet_raw_string in N.
Qed.

Lemma near_plus_minus : near 0 anyp plus_minus.
Proof.
  unfold plus_minus. apply near_or_quiet with (j := 0).
  - apply noalt_near, noalt_just.
  - apply noalt_near, noalt_just.
  - quiets.
  - eapply eats_le; [apply eats_just|lia].
  - apply enear_just.
Qed.

Lemma near_id_chars F : near 0 F (p_repeated id_char).
Proof.
  apply near_repeated.
  - apply noalt_near, noalt_map_err, noalt_filter.
  - apply enear_map_err, enear_filter.
  - apply eats_id_char.
Qed.

Lemma S_id_chars : Safe (p_repeated (@id_char Sp E)).
Proof. apply S_repeated; auto with safe. Qed.
Hint Resolve S_id_chars : safe.

Lemma near_bare_ident : near 0 anyp bare_ident.
Proof.
  unfold bare_ident. apply near_try_map, near_choice. foralls.
  - apply near_map, near_then with (j := 0) (G := anyp).
    + apply near_plus_minus.
    + apply near_map, near_then with (j := 0) (G := anyp).
      * apply noalt_near, noalt_map_err, noalt_filter.
      * apply near_id_chars.
      * apply eats0. auto with safe.
      * intros; exact I.
    + apply eats0, S_map, S_then; auto with safe.
    + intros; exact I.
  - apply near_repeat.
    + apply near_plus_minus.
    + unfold plus_minus. apply enear_or; apply enear_just.
    + apply eats_plus_minus.
  - apply near_map, near_then with (j := 0) (G := anyp).
    + apply noalt_near, noalt_map_err, noalt_filter.
    + apply near_id_chars.
    + apply eats0. auto with safe.
    + intros; exact I.
Qed.

Lemma near_opt_sign F : near 0 F opt_sign.
Proof.
  unfold opt_sign. apply near_or_not.
  - apply near_any, near_or_quiet with (j := 0).
    + apply noalt_near, noalt_just.
    + apply noalt_near, noalt_just.
    + quiets.
    + eapply eats_le; [apply eats_just|lia].
    + apply enear_just.
  - apply enear_or; apply enear_just.
Qed.

Lemma or_not_ok {A} (p : parser A) (ts : toks) :
  exists o r alt, r_out (p_or_not p ts) = Ok o r alt.
Proof. unfold p_or_not. destruct (r_out (p ts)); simpl; eauto. Qed.

Lemma opt_sign_ok (ts : toks) : exists o r alt, r_out (opt_sign ts) = Ok o r alt.
Proof. apply or_not_ok. Qed.

Lemma near_digits r F : near 0 F (digits r).
Proof.
  unfold digits. apply near_repeated.
  - apply noalt_near, noalt_filter.
  - apply enear_filter.
  - apply eats_filter.
Qed.

Lemma repeat0_ok {A} am (p : parser A) (ts : toks) :
  exists a rest alt, r_out (p_repeat 0 am p ts) = Ok a rest alt.
Proof.
  unfold p_repeat. generalize (3 + len ts) as fuel. intros fuel.
  generalize (@nil located) as errs, (@nil A) as outs, (@None located) as alt,
    (@None nat) as old, (@nil crash) as cr.
  revert ts. induction fuel as [|fuel IH]; intros; cbn [repeat_loop].
  - simpl. eauto.
  - match goal with |- context [if ?b then Res _ _ _ else _] => destruct b end.
    { simpl. eauto. }
    destruct (r_out (p ts)) as [a r al1|e].
    + destruct (merge_alts alt al1).
      match goal with |- context [if ?b then Res _ _ _ else _] => destruct b end.
      * simpl. eauto.
      * apply IH.
    + destruct (merge_alts alt (Some e)). cbn [Nat.ltb Nat.leb].
      replace (List.length outs <? 0) with false by (symmetry; apply Nat.ltb_ge; lia).
      simpl. eauto.
Qed.

Lemma enear_then_rep {A B} k F (p : parser A) (q : parser B) :
  enear k F p -> (forall ts, exists a rest alt, r_out (q ts) = Ok a rest alt) ->
  enear k F (p_then p q).
Proof.
  intros Hp Hq ts e Q f. apply bind_err in Q as [Q|(a & r1 & alt1 & e2 & c & Q & R & _)].
  - eauto.
  - destruct (Hq r1) as (x & y & z & X). congruence.
Qed.

Lemma near_fraction : near 1 anyp fraction.
Proof.
  unfold fraction. apply near_map, near_or_not.
  - apply near_map, near_then with (j := 0) (G := anyp).
    + apply noalt_near, noalt_map, noalt_then; [apply noalt_just|apply noalt_filter].
    + apply near_up, near_digits.
    + apply eats0. auto with safe.
    + intros; exact I.
  - apply enear_map, enear_then_rep.
    + apply enear_map, enear_bind with (j := 1) (G := anyp); [| | |lia].
      * apply enear_up, enear_just.
      * intros ts a r1 alt Q _. pose proof (noalt_just _ _ _ _ _ Q) as ->.
        apply just_len in Q. simpl. repeat split; lia || auto.
      * intros _. apply enear_filter.
    + intros ts. apply repeat0_ok.
Qed.

Lemma near_exponent : near 0 anyp exponent.
Proof.
  unfold exponent. apply near_map, near_or_not.
  - apply near_map, near_then with (j := 0) (G := anyp).
    + apply near_map, near_then with (j := 0) (G := anyp).
      * apply near_or_quiet with (j := 0).
        -- apply noalt_near, noalt_just.
        -- apply noalt_near, noalt_just.
        -- quiets.
        -- eapply eats_le; [apply eats_just|lia].
        -- apply enear_just.
      * apply near_opt_sign.
      * apply eats0. auto with safe.
      * intros; exact I.
    + apply near_digits.
    + apply eats0. auto with safe.
    + intros; exact I.
  - apply enear_map, enear_then_rep.
    + apply enear_map, enear_then_rep.
      * apply enear_or; apply enear_just.
      * apply opt_sign_ok.
    + intros ts. apply repeat0_ok.
Qed.

Lemma near_decimal : near 1 anyp decimal_number.
Proof.
  unfold decimal_number. apply near_map, near_map, near_then with (j := 0) (G := anyp).
  - apply near_map, near_then with (j := 0) (G := anyp).
    + apply near_map, near_then with (j := 0) (G := anyp).
      * apply near_map, near_then with (j := 1) (G := anyp).
        -- apply near_up, near_opt_sign.
        -- apply noalt_near, noalt_filter.
        -- apply eats_filter.
        -- intros; exact I.
      * apply near_up, near_digits.
      * apply eats0. auto with safe.
      * intros; exact I.
    + apply near_fraction.
    + apply eats0. auto with safe.
    + intros; exact I.
  - apply near_up, near_exponent.
  - apply eats0. auto with safe.
  - intros; exact I.
Qed.

Lemma near_radix_digits c n r : near 0 anyp (radix_digits c n r).
Proof.
  unfold radix_digits. apply near_ignore_then with (j := 0) (G := anyp).
  - apply noalt_near, noalt_just.
  - apply near_map, near_map, near_then with (j := 0) (G := anyp).
    + apply noalt_near, noalt_filter.
    + apply near_digits.
    + apply eats0. auto with safe.
    + intros; exact I.
  - apply eats0. auto with safe.
  - intros; exact I.
Qed.

Lemma enear_radix_digits c n r : enear 1 anyp (radix_digits c n r).
Proof.
  unfold radix_digits. apply enear_map, enear_bind with (j := 1) (G := anyp); [| | |lia].
  - apply enear_up, enear_just.
  - intros ts a r1 alt Q _. pose proof (noalt_just _ _ _ _ _ Q) as ->.
    apply just_len in Q. simpl. repeat split; lia || auto.
  - intros _. apply enear_map, enear_map, enear_then_rep.
    + apply enear_filter.
    + intros ts. apply repeat0_ok.
Qed.

Lemma near_radix : near 0 anyp radix_number.
Proof.
  unfold radix_number. apply near_map, near_then with (j := 0) (G := anyp).
  - apply near_then_ignore with (j := 1) (G := anyp).
    + apply near_up, near_opt_sign.
    + apply noalt_near, noalt_just.
    + apply eats_just.
    + intros; exact I.
  - apply near_choice. foralls; apply near_radix_digits.
  - apply eats0, S_choice; [discriminate|]. foralls; auto with safe.
  - intros; exact I.
Qed.

(** Both kinds of numbers start with an optional sign. *)
Lemma radix_err ts e o r1 alt1 : r_out (radix_number ts) = Err e ->
  r_out (opt_sign ts) = Ok o r1 alt1 -> len r1 <= l_rem e + 2.
Proof.
  intros Q O. unfold radix_number in Q. apply map_err_inv in Q.
  pose proof (near_opt_sign anyp _ _ _ _ O I) as W.
  apply bind_err in Q as [Q|(a & r2 & alt2 & e2 & c & Q & R & M)].
  - apply map_err_inv in Q.
    apply bind_err in Q as [Q|(a & r2 & alt2 & e2 & c & Q & R & M)].
    + congruence.
    + rewrite O in Q. inversion Q; subst.
      pose proof (enear_just _ anyp _ _ R I).
      destruct alt2 as [e1|]; simpl in *.
      * apply lmax_rem in M. lia.
      * inversion M; subst. lia.
  - apply map_ok in Q as [x [Q _]].
    apply bind_ok in Q as (x1 & x2 & r3 & alt3 & alt4 & c' & Q & Q' & M' & ->).
    rewrite O in Q. inversion Q; subst.
    pose proof (just_len _ _ _ _ _ Q') as J. apply noalt_just in Q'. subst alt4.
    assert (alt2 = alt3) by (destruct alt3; simpl in M'; congruence). subst alt2.
    assert (N : enear 1 anyp (p_choice [ radix_digits 0x62%N 2 Bin;
                  radix_digits 0x6F%N 8 Oct; radix_digits 0x78%N 16 Hex ])).
    { apply enear_choice. foralls; apply enear_radix_digits. }
    pose proof (N _ _ R I).
    destruct alt3 as [e1|]; simpl in *.
    + apply lmax_rem in M. lia.
    + inversion M; subst. lia.
Qed.

Opaque opt_sign digits exponent fraction.

Lemma decimal_ok ts x rest alt o r1 alt1 : r_out (decimal_number ts) = Ok x rest alt ->
  r_out (opt_sign ts) = Ok o r1 alt1 -> len rest + 1 <= len r1.
Proof.
  intros Q O. unfold decimal_number in Q.
  do 2 apply map_ok in Q as [? [Q _]].
  apply bind_ok in Q as (? & ? & ra & ? & ? & ? & Q & Qa & _).
  apply map_ok in Q as [? [Q _]].
  apply bind_ok in Q as (? & ? & rb & ? & ? & ? & Q & Qb & _).
  apply map_ok in Q as [? [Q _]].
  apply bind_ok in Q as (? & ? & rc & ? & ? & ? & Q & Qc & _).
  apply map_ok in Q as [? [Q _]].
  apply bind_ok in Q as (? & ? & rd & ? & ? & ? & Q & Qd & _).
  rewrite O in Q. inversion Q; subst.
  apply (eats0 _ S_exponent) in Qa. apply (eats0 _ S_fraction) in Qb.
  apply (eats0 _ (S_digits 10)) in Qc. apply eats_filter in Qd. lia.
Qed.

Lemma near_number : near 1 anyp number.
Proof.
  unfold number. apply near_or.
  - apply near_up, near_radix.
  - apply near_decimal.
  - intros ts e b rest alt P Q _.
    destruct (opt_sign_ok ts) as (o & r & alt1 & O).
    pose proof (radix_err _ _ _ _ _ P O). pose proof (decimal_ok _ _ _ _ _ _ _ Q O). lia.
  - intros ts a rest alt N. now rewrite quiet_radix_number in N.
Qed.

Lemma choice3_ok {A} (p1 p2 p3 : parser A) (ts : toks) a rest alt :
  r_out (p_choice [p1; p2; p3] ts) = Ok a rest alt ->
  r_out (p1 ts) = Ok a rest alt \/ r_out (p2 ts) = Ok a rest alt
  \/ r_out (p3 ts) = Ok a rest alt.
Proof.
  unfold p_choice. intros Q. apply choice_from_ok in Q as (p & J & Q & _).
  cbn [In] in J. destruct J as [<-|[<-|[<-|[]]]]; auto.
Qed.

Lemma noalt_keyword1 s l : noalt (keyword1 s l).
Proof. apply noalt_map, noalt_map_err, noalt_just_str. Qed.

Lemma noalt_keyword : noalt keyword.
Proof.
  intros ts a rest alt Q. unfold keyword in Q.
  apply choice3_ok in Q as [Q|[Q|Q]]; exact (noalt_keyword1 _ _ _ _ _ _ Q).
Qed.

Lemma near_literal : near 1 anyp literal_.
Proof.
  unfold literal_. apply near_choice. foralls.
  - apply near_map, near_up, near_string.
  - apply noalt_near, noalt_keyword.
  - apply near_number.
Qed.

Lemma near_ident : near 1 anyp ident.
Proof.
  unfold ident. apply near_try_map, near_choice. foralls.
  - apply near_map, near_number.
  - apply near_map, near_up, near_bare_ident.
  - apply near_map, near_up, near_string.
Qed.

Lemma near_type_name : near 0 anyp type_name.
Proof.
  unfold type_name, p_delimited. apply near_map.
  apply near_then_ignore with (j := 1) (G := anyp).
  - apply near_ignore_then with (j := 0) (G := anyp).
    + apply noalt_near, noalt_just.
    + apply near_ident.
    + apply eats0. auto with safe.
    + intros; exact I.
  - apply noalt_near, noalt_just.
  - apply eats_just.
  - intros; exact I.
Qed.

Lemma near_type_name_value : near 1 anyp type_name_value.
Proof.
  unfold type_name_value. apply near_map, near_then with (j := 0) (G := anyp).
  - apply near_up, near_spanned, near_type_name.
  - apply near_spanned, near_literal.
  - apply eats0. auto with safe.
  - intros; exact I.
Qed.

Lemma lit_not_paren c : f_lit c = true -> (c =? 0x28)%N = false.
Proof.
  intros H. apply N.eqb_neq. intros ->. discriminate H.
Qed.
Lemma paren_not_lit c : (c =? 0x28)%N = true -> f_lit c = false.
Proof. intros H. apply N.eqb_eq in H. now subst. Qed.

Lemma near_value : near 1 anyp value_.
Proof.
  assert (R : rej f_lit (p_map (fun l => Value None l) (p_spanned literal_)))
    by (apply rej_map, rej_spanned, rej_literal).
  unfold value_. apply near_or.
  - apply near_type_name_value.
  - apply near_map, near_spanned, near_literal.
  - intros ts e b rest alt P Q _.
    pose proof (rej_no _ _ _ _ _ _ R Q) as H.
    apply (hd_excl _ _ _) with (2 := lit_not_paren) in H.
    pose proof (rej_enear _ _ rej_type_name_value _ _ P H).
    apply map_ok in Q as [x [Q _]]. apply span_ok in Q as [y [Q _]].
    apply eats_literal in Q. lia.
  - intros ts a rest alt _ Q.
    pose proof (rej_no _ _ _ _ _ _ rej_type_name_value Q) as H.
    apply (hd_excl _ _ _) with (2 := paren_not_lit) in H.
    destruct (R ts H) as [e [X _]]. exists (Located (len ts) e). rewrite X.
    split; auto. intros _. simpl. apply eats_type_name_value in Q. lia.
Qed.

Definition not_eq (ts : toks) : Prop := hd (fun c => (c =? 0x3D)%N) ts = false.

Lemma near_opt_value : near 1 not_eq opt_value.
Proof.
  unfold opt_value. apply near_or_not.
  - apply near_any, near_ignore_then with (j := 0) (G := anyp).
    + apply noalt_near, noalt_just.
    + apply near_value.
    + apply eats0. auto with safe.
    + intros; exact I.
  - eapply enear_weaken; [apply rej_enear, rej_ignore_then, rej_just|lia|]. auto.
Qed.

Lemma near_prop_or_arg_inner : near 1 not_eq prop_or_arg_inner.
Proof.
  unfold prop_or_arg_inner. apply near_choice. foralls.
  - apply near_try_map, near_then with (j := 0) (G := anyp).
    + apply near_spanned, near_literal.
    + apply near_opt_value.
    + apply eats0. auto with safe.
    + intros; exact I.
  - apply near_map, near_validate, near_then with (j := 0) (G := anyp).
    + apply near_up, near_spanned, near_bare_ident.
    + apply near_opt_value.
    + apply eats0. auto with safe.
    + intros; exact I.
  - apply near_map, near_any, near_type_name_value.
Qed.

End GrammarNear.
