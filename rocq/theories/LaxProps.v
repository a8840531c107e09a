(** What the errors of a parse say about the text before them. *)

From Coq Require Import NArith PeanoNat List Bool String Lia.
From Verif Require Import Chars Ast Errors Chumsky Spans Grammar Safe Kdl KdlText Good SpanProps ErrSpec TokenSet ErrAt ErrGrammar ErrProps Meaning LexLit LexIdent Template LaxSpec LaxCalc LaxNode.
Import ListNotations.
Local Open Scope list_scope.

(** ** From the parser to the whole parse *)

Lemma run_good {A} t V (p : parser span A) Q : at_ t V p [] t Q ->
  match run p (toks_at [] t) with
  | Parsed a => exists m q', t = m ++ q' /\ Q m q' a
  | Rejected es => forall e, In e es -> exists P q1, t = P ++ q1 /\ good_err t V P q1 e
  | Panicked => True
  end.
Proof.
  intros [H1 H2]. unfold run. destruct (r_crash (p (toks_at [] t))); [|exact I].
  assert (forall l, Forall (gl t V) l -> forall e, In e (map l_err l) ->
    exists P q1, t = P ++ q1 /\ good_err t V P q1 e) as M.
  { intros l H e I. apply in_map_iff in I. destruct I as (x & <- & I).
    rewrite Forall_forall in H. destruct (H x I) as (P & q1 & T & _ & G). exists P, q1. auto. }
  destruct (r_out (p (toks_at [] t))) as [a rest alt|e].
  - destruct (r_errs (p (toks_at [] t))) as [|x l]; [|exact (M (x :: l) H1)].
    destruct H2 as (m & q' & X & _ & _ & W). exists m, q'. auto.
  - apply M. apply Forall_app. split; [exact H1|]. constructor; [exact H2|constructor].
Qed.

Lemma parse_good t :
  match parse_ast_span t with
  | Parsed _ => beginning t
  | Rejected es => forall e, In e es -> exists P q1, t = P ++ q1 /\ good_err t beginning P q1 e
  | Panicked => True
  end.
Proof.
  generalize (run_good t beginning _ _ (at_document t)). intros H.
  change (parse_ast_span t) with (run (@document_ _ (ErrAt.E t)) (toks_at [] t)).
  destruct (run (@document_ _ (ErrAt.E t)) (toks_at [] t)); [|exact H|exact I].
  destruct H as (m & q' & _ & _ & H). exact H.
Qed.

Theorem parse_beginning t d : parse_ast_span t = Parsed d -> beginning t.
Proof. intros H. generalize (parse_good t). rewrite H. auto. Qed.

Theorem errors_follow t es e sp : parse_ast_span t = Rejected es -> In e es -> In sp (perror_spans e) ->
  exists p, starts_after t sp p /\ beginning p.
Proof.
  intros H I S. generalize (parse_good t). rewrite H. intros G. destruct (G e I) as (P & q1 & _ & F & _).
  rewrite Forall_forall in F. exact (F sp S).
Qed.

(** ** Beginnings *)

Lemma beginning_less p q : beginning (p ++ q) -> beginning p.
Proof. intros [s H]. exists (q ++ s). rewrite app_assoc. exact H. Qed.

Lemma split_either (p q p' q' : text) : p ++ q = p' ++ q' ->
  (exists l, p = p' ++ l) \/ (exists l, l <> [] /\ p' = p ++ l).
Proof.
  intros H. apply app_eq_app in H. destruct H as (l & [[-> _]|[-> _]]); [left; exists l; reflexivity|].
  destruct l as [|c l]; [left; exists []; rewrite !app_nil_r; reflexivity|].
  right. exists (c :: l). split; [discriminate|reflexivity].
Qed.

(** No error after a text that begins no document, and no document. *)
Theorem mistake_in_time p q es e sp : ~ beginning p -> parse_ast_span (p ++ q) = Rejected es ->
  In e es -> In sp (perror_spans e) -> sp_start sp < byte_len p.
Proof.
  intros N H I S. destruct (errors_follow _ _ _ _ H I S) as (p' & [[q' X] Y] & B).
  rewrite Y. destruct (split_either _ _ _ _ X) as [(l & ->)|(l & _ & ->)].
  - destruct l as [|c l].
    + rewrite app_nil_r in N. contradiction.
    + rewrite byte_len_app. assert (0 < byte_len (c :: l)) by (apply byte_len_pos; discriminate). lia.
  - exfalso. apply N. eapply beginning_less, B.
Qed.

Theorem mistake_seen p q d : ~ beginning p -> parse_ast_span (p ++ q) <> Parsed d.
Proof. intros N H. apply N. eapply beginning_less, parse_beginning, H. Qed.

(** ** Suggestions *)

Lemma byte_len_prefix P q1 p q : P ++ q1 = p ++ q -> byte_len P = byte_len p -> P = p.
Proof.
  intros X L. destruct (split_either _ _ _ _ X) as [(l & ->)|(l & N & ->)].
  - destruct l as [|c l]; [apply app_nil_r|]. rewrite byte_len_app in L.
    assert (0 < byte_len (c :: l)) by (apply byte_len_pos; discriminate). lia.
  - rewrite byte_len_app in L. apply byte_len_pos in N. lia.
Qed.

Theorem suggestion_fits t es sp c exp k x p : parse_ast_span t = Rejected es ->
  In (EUnexpected None sp (TChar c) exp) es -> In k exp -> fits k x -> starts_after t sp p ->
  beginning (p ++ [x]).
Proof.
  intros H I K F [[q Y] Z]. generalize (parse_good t). rewrite H. intros G.
  destruct (G _ I) as (P & q1 & T & _ & _ & F1 & F2). destruct (F2 eq_refl) as [L N].
  assert (P = p) as <-. { apply (byte_len_prefix P q1 p q); congruence. }
  apply (F1 k); [exact K|exact F|apply (N c); reflexivity].
Qed.

Theorem suggestions_fit t es sp c exp k x : parse_ast_span t = Rejected es ->
  In (EUnexpected None sp (TChar c) exp) es -> In k exp -> fits k x ->
  exists p, starts_after t sp p /\ beginning (p ++ [x]).
Proof.
  intros H I K F.
  destruct (errors_follow t es _ sp H I) as (p & S & B); [left; reflexivity|].
  exists p. split; [exact S|]. eapply suggestion_fits; eassumption.
Qed.

(** ** How a document can begin *)

Definition starts (L : lang) (P : char -> Prop) : Prop :=
  forall s, L s -> exists c u, s = c :: u /\ P c.

Definition starts0 (L : lang) (P : char -> Prop) : Prop :=
  forall s, L s -> s = [] \/ exists c u, s = c :: u /\ P c.

Section First.
Variable P : char -> Prop.

Lemma starts_weaken L : starts L P -> starts0 L P.
Proof. intros H s X. right. auto. Qed.

Lemma starts_cat L L' : starts L P -> starts (cat L L') P.
Proof. intros H s [a b A _]. destruct (H a A) as (c & u & -> & C). exists c, (u ++ b). auto. Qed.

Lemma starts_cat0 L L' : starts0 L P -> starts L' P -> starts (cat L L') P.
Proof.
  intros H K s [a b A B]. destruct (H a A) as [->|(c & u & -> & C)]; [exact (K b B)|].
  exists c, (u ++ b). auto.
Qed.

Lemma starts0_cat L L' : starts0 L P -> starts0 L' P -> starts0 (cat L L') P.
Proof.
  intros H K s [a b A B]. destruct (H a A) as [->|(c & u & -> & C)]; [exact (K b B)|].
  right. exists c, (u ++ b). auto.
Qed.

Lemma starts_alt L L' : starts L P -> starts L' P -> starts (alt L L') P.
Proof. intros H K s [a A|a A]; auto. Qed.

Lemma starts_opt L : starts L P -> starts0 (opt L) P.
Proof. intros H s [|a A]; [left; reflexivity|right; auto]. Qed.

Lemma starts_star L : starts L P -> starts0 (star L) P.
Proof.
  intros H s [|a b A _]; [left; reflexivity|]. right. destruct (H a A) as (c & u & -> & C).
  exists c, (u ++ b). auto.
Qed.

Lemma starts_word c u : P c -> starts (word (c :: u)) P.
Proof. intros H s <-. exists c, u. auto. Qed.

Lemma starts_one (Q : char -> Prop) : (forall c, Q c -> P c) -> starts (one_of Q) P.
Proof. intros H s (c & C & ->). exists c, []. auto. Qed.

End First.

(** What a document can begin with. *)
Definition begins (c : char) : Prop :=
  In c ws_chars \/ In c newline_chars \/ In c (str "/(" ++ [0x22%N]) \/ sign_char c \/ ident_start c.

Lemma newline_begins : starts lax_newline begins.
Proof.
  apply starts_alt.
  - apply starts_word. right. left. cbn. auto.
  - apply starts_one. intros c H. right. left. exact H.
Qed.

Lemma slash_begins : begins 0x2F%N.
Proof. right. right. left. cbn. auto. Qed.

Lemma comment_begins : starts lax_comment begins.
Proof. apply starts_cat, starts_word, slash_begins. Qed.

Lemma ws_begins : starts lax_ws begins.
Proof.
  apply starts_alt.
  - apply starts_one. intros c H. left. exact H.
  - intros s [u _]. eexists. eexists. split; [reflexivity|exact slash_begins].
Qed.

Lemma lspace_begins : starts lax_lspace begins.
Proof. apply starts_alt; [exact newline_begins|]. apply starts_alt; [exact ws_begins|exact comment_begins]. Qed.

Lemma slashdash_begins : starts lax_slashdash begins.
Proof. apply starts_cat, starts_word, slash_begins. Qed.

Lemma name_begins : starts lax_name begins.
Proof.
  apply starts_alt.
  - intros s H. destruct (bare_start s H) as (c & u & -> & [C|C]); exists c, u; (split; [reflexivity|]).
    + right. right. right. left. exact C.
    + right. right. right. right. exact C.
  - apply starts_cat, starts_word. right. right. left. cbn. auto.
Qed.

Lemma type_begins : starts lax_type begins.
Proof. apply starts_cat, starts_word. right. right. left. cbn. auto. Qed.

Lemma node_begins N : starts (lax_node N) begins.
Proof. apply starts_cat0; [apply starts_opt, type_begins|]. apply starts_cat, name_begins. Qed.

Lemma list_begins N : starts0 (lax_list N) begins.
Proof.
  apply starts0_cat; [apply starts_star, lspace_begins|]. apply starts_star.
  apply starts_cat0; [apply starts_opt, slashdash_begins|]. apply starts_cat, node_begins.
Qed.

Lemma document_begins s : lax_document s -> s = [] \/ exists c u, s = c :: u /\ begins c.
Proof. intros [u H]. exact (list_begins _ _ H). Qed.

Theorem beginning_char c s : beginning (c :: s) -> begins c.
Proof.
  intros [u H]. destruct (document_begins _ H) as [X|(c' & u' & X & B)]; [discriminate|].
  injection X as <- _. exact B.
Qed.

Lemma brace_begins : ~ begins 0x7D%N.
Proof.
  intros [H|[H|[H|[H|[H _]]]]]; [cbn in H; intuition discriminate..|destruct H; discriminate|].
  destruct H as [H|(_ & N & _)]; [discriminate|]. apply N. cbn. tauto.
Qed.

Lemma zero_begins : ~ begins 0x30%N.
Proof.
  intros [H|[H|[H|[H|[_ H]]]]]; [cbn in H; intuition discriminate..|destruct H; discriminate|].
  apply H. exists 0%N. split; [reflexivity|left; reflexivity].
Qed.

(** ** A text after which KDL has nothing more *)

Lemma body_hex s u w rest : string_body s u -> s ++ 0x22%N :: w <> str "\u{123456" ++ rest.
Proof.
  intros H X. destruct H as [|c s u C1 C2 _|e v s u E _].
  - discriminate.
  - injection X as -> _. exfalso. apply C2. reflexivity.
  - destruct E as [c v I|ds v L D S].
    + injection X as -> _. cbn in I. intuition discriminate.
    + assert (ds ++ 0x7D%N :: s ++ 0x22%N :: w = [0x31; 0x32; 0x33; 0x34; 0x35; 0x36]%N ++ rest) as Y.
      { injection X as X. rewrite <- !app_assoc in X. exact X. }
      clear X.
      destruct ds as [|d1 ds]; [discriminate Y|]. injection Y as -> Y.
      destruct ds as [|d2 ds]; [discriminate Y|]. injection Y as -> Y.
      destruct ds as [|d3 ds]; [discriminate Y|]. injection Y as -> Y.
      destruct ds as [|d4 ds]; [discriminate Y|]. injection Y as -> Y.
      destruct ds as [|d5 ds]; [discriminate Y|]. injection Y as -> Y.
      destruct ds as [|d6 ds]; [discriminate Y|]. injection Y as -> Y.
      destruct ds as [|d7 ds]; [|cbn in L; lia].
      apply digits_value_hex in D. destruct D as [_ <-]. destruct S as [S _]. vm_compute in S. auto.
Qed.

Definition long_escape : text := [0x22%N] ++ str "\u{123456".

Theorem no_long_escape s d : parse_ast_span (long_escape ++ s) <> Parsed d.
Proof.
  intros H. apply parse_span_tokens in H.
  generalize (span_env (Span (byte_len (long_escape ++ s)) (byte_len (long_escape ++ s)))) as E', H.
  clear H. intros E' H.
  destruct (first_node false _ d 0x22%N (str "\u{123456" ++ s) H) as (s1 & r & n & D' & X & N & _).
  - rewrite offset_chars. reflexivity.
  - cbn. intuition discriminate.
  - cbn. intuition discriminate.
  - discriminate.
  - assert (chars (s1 ++ r) = 0x22%N :: str "\u{123456" ++ s) as Y.
    { rewrite <- X, offset_chars. reflexivity. }
    destruct (node_parts false s1 r n 0x22%N _ N Y) as (sn & si & R & nm & l & ps & ch & Q & Id & _);
      [discriminate|].
    rewrite Q, chars_app in Y. revert Id Y. generalize (chars (si ++ R)). generalize (chars sn). intros v w Id Y.
    destruct Id as [u rest B _|u rest nm' [b nb B]].
    + destruct (bare_start u B) as (c & u' & -> & C). injection Y as -> _. revert C.
      intros [C|[C _]]; [destruct C; discriminate|]. destruct C as [C|(_ & C & _)]; [discriminate|].
      apply C. cbn. tauto.
    + cbn [app] in Y. injection Y as Y. rewrite <- app_assoc in Y. exact (body_hex _ _ _ _ B Y).
Qed.

(** ** Line spans *)

Theorem line_errors_follow w t es e sp : parse_ast_linespan w t = Rejected es -> In e es ->
  In sp (perror_spans e) -> exists p, starts_after t (linespan_to_span sp) p /\ beginning p.
Proof.
  intros H I S. apply line_rejected in H.
  apply (errors_follow t _ (map_perror_span linespan_to_span e) _ H).
  - apply in_map, I.
  - rewrite perror_spans_map. apply in_map, S.
Qed.

(** ** What fails *)

Definition long_escape_source : text := long_escape ++ str "7}" ++ [0x22%N] ++ str " 1".

Lemma long_escape_rejected : exists t es, parse_ast_span t = Rejected es /\ es <> []
  /\ forall e sp, In e es -> In sp (perror_spans e) ->
     exists p, starts_after t sp p /\ forall s d, parse_ast_span (p ++ s) <> Parsed d.
Proof.
  exists long_escape_source.
  exists [EUnexpected None (Span 10 11) (TChar 0x37%N) [TChar 0x7D%N]].
  split; [vm_compute; reflexivity|]. split; [discriminate|].
  intros e sp [<-|[]] [<-|[]]. exists long_escape. split; [|exact no_long_escape].
  split; [|reflexivity]. exists (str "7}" ++ [0x22%N] ++ str " 1"). reflexivity.
Qed.

Definition brace_errors : list (perror span) :=
  match parse_ast_span (str "}") with Rejected es => es | _ => [] end.

Lemma zero_suggested : exists t es sp c exp x p, parse_ast_span t = Rejected es
  /\ In (EUnexpected None sp (TChar c) exp) es /\ In (TChar x) exp /\ starts_after t sp p
  /\ forall s d, parse_ast_span (p ++ x :: s) <> Parsed d.
Proof.
  exists (str "}"), brace_errors, (Span 0 1), 0x7D%N.
  exists [TChar 0x22; TChar 0x28; TChar 0x2B; TChar 0x2D; TChar 0x30; TChar 0x72;
    TKind (str "letter"); TKind (str "newline"); TKind (str "whitespace"); TEoi]%N.
  exists 0x30%N, [].
  split; [vm_compute; reflexivity|]. split; [vm_compute; auto|]. split; [cbn; tauto|].
  split; [split; [exists (str "}"); reflexivity|reflexivity]|].
  intros s d H. cbn [app] in H. apply parse_beginning, beginning_char in H. exact (zero_begins H).
Qed.

Definition inner_source : text := str "a { b }".

Definition inner_errors : list (perror span) :=
  match parse_ast_span inner_source with Rejected es => es | _ => [] end.

Lemma end_suggested : exists t es sp c exp p, parse_ast_span t = Rejected es
  /\ In (EUnexpected None sp (TChar c) exp) es /\ In TEoi exp /\ starts_after t sp p
  /\ forall d, parse_ast_span p <> Parsed d.
Proof.
  exists inner_source, inner_errors, (Span 6 7), 0x7D%N.
  exists [TChar 0x22; TChar 0x28; TChar 0x2B; TChar 0x2D; TChar 0x30; TChar 0x3B; TChar 0x5C;
     TChar 0x72; TChar 0x7B; TToken (str "false"); TToken (str "null"); TToken (str "true");
     TKind (str "letter"); TKind (str "newline"); TKind (str "whitespace"); TEoi]%N.
  exists (str "a { b ").
  split; [vm_compute; reflexivity|]. split; [vm_compute; auto|]. split; [cbn; tauto|].
  split; [split; [exists (str "}"); reflexivity|reflexivity]|].
  intros d. vm_compute. discriminate.
Qed.
