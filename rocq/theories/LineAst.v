(** Line and column numbers in the AST. *)

From Coq Require Import NArith PeanoNat List Bool String Lia ZifyBool.
From Verif Require Import Chars Ast Errors Chumsky Spans Grammar Kdl KdlChars LineSpec SpanSpec SpanProps
  LineProps Param ParamGrammar SpanIndep.
Import ListNotations.
Local Open Scope list_scope.

(** ** Related documents have related spans *)

Section Spans.
Context {S1 S2 : Type}.
Variable R : S1 -> S2 -> Prop.

Lemma Forall2_flat {A B C D} (P : A -> B -> Prop) (Q : C -> D -> Prop) (f : A -> list C) (g : B -> list D) l l' :
  Forall2 P l l' -> (forall a b, P a b -> Forall2 Q (f a) (g b)) ->
  Forall2 Q (flat_map f l) (flat_map g l').
Proof. intros H F. induction H; cbn; [constructor|]. apply Forall2_app; auto. Qed.

Lemma opt_spans ty ty' : ropt (rspanned (A := typename) R eq) ty ty' ->
  Forall2 R (match ty with Some ty => [s_span ty] | None => [] end)
            (match ty' with Some ty => [s_span ty] | None => [] end).
Proof. intros H. destruct H as [|a b [H _]]; repeat constructor. exact H. Qed.

Lemma rel_value_spans v v' : rel_value R v v' -> Forall2 R (value_spans v) (value_spans v').
Proof.
  intros [H [K _]]. unfold value_spans. apply Forall2_app; [apply opt_spans, H|].
  constructor; [exact K|constructor].
Qed.

Lemma rel_node_spans : forall n n', rel_node R n n' -> Forall2 R (node_spans n) (node_spans n').
Proof.
  fix IH 3. intros n n' H.
  destruct H as [ty ty' nm nm' args args' props props' ch ch' H1 H2 H3 H4 H5].
  cbn [node_spans]. apply Forall2_app; [apply opt_spans, H1|].
  apply Forall2_app; [constructor; [apply H2|constructor]|].
  apply Forall2_app; [eapply Forall2_flat; [exact H3|apply rel_value_spans]|].
  apply Forall2_app.
  { eapply Forall2_flat; [exact H4|]. intros a b [[A _] B]. constructor; [exact A|].
    apply rel_value_spans. exact B. }
  destruct H5 as [|[s l] [s' l'] [H K]]; [constructor|]. cbn in H, K. constructor; [exact H|].
  clear - IH K. induction K as [|[q m] [q' m'] l l' [H H'] _ I]; cbn; [constructor|].
  cbn in H, H'. constructor; [exact H|]. apply Forall2_app; [apply IH; exact H'|exact I].
Qed.

Lemma rel_document_spans d d' : rel_doc R d d' -> Forall2 R (document_spans d) (document_spans d').
Proof.
  intros H. eapply Forall2_flat; [exact H|]. intros a b [A B]. constructor; [exact A|].
  apply rel_node_spans. exact B.
Qed.
End Spans.

(** ** The spans of an exact document are not empty *)

Scheme exact_node_mut := Induction for exact_node Sort Prop
  with exact_nodes_mut := Induction for exact_nodes Sort Prop.

Definition sourced (t : text) (sp : span) : Prop := exists s, source t sp s.

Lemma exact_value_spans t v : exact_value t v -> Forall (sourced t) (value_spans v).
Proof.
  intros [[s [H _]] K]. unfold value_spans. apply Forall_app. split.
  - destruct (v_type_name v) as [ty|]; [|constructor]. destruct (K ty eq_refl) as [[u [U _]] _].
    constructor; [exists u; exact U|constructor].
  - constructor; [exists s; exact H|constructor].
Qed.

Lemma Forall_flat {A B} (P : A -> Prop) (Q : B -> Prop) (f : A -> list B) l :
  Forall P l -> (forall a, P a -> Forall Q (f a)) -> Forall Q (flat_map f l).
Proof. intros H F. induction H; cbn; [constructor|]. apply Forall_app. auto. Qed.

Lemma exact_document_spans t lo hi d : exact_nodes t lo hi d -> Forall (sourced t) (document_spans d).
Proof.
  revert lo hi d.
  apply (exact_nodes_mut t (fun sp n _ => sourced t sp /\ Forall (sourced t) (node_spans n))
           (fun lo hi d _ => Forall (sourced t) (document_spans d))).
  - intros sp s ty nm args props ch last S Ty _ [x [r [Nm _]]] Args Keys Vals _ _ Ch _ _ _ IH.
    split; [exists s; exact S|]. cbn [node_spans].
    apply Forall_app. split.
    { destruct ty as [ty|]; [|constructor]. destruct (Ty ty eq_refl) as [[u [U _]] _].
      constructor; [exists u; exact U|constructor]. }
    apply Forall_app. split; [constructor; [exists x; exact Nm|constructor]|].
    apply Forall_app. split; [eapply Forall_flat; [exact Args|apply exact_value_spans]|].
    apply Forall_app. split.
    { clear - Keys Vals. induction Keys as [|[k v] l [u [U _]] _ I]; cbn; [constructor|].
      inversion Vals; subst. constructor; [exists u; exact U|].
      apply Forall_app. split; [apply exact_value_spans; assumption|apply I; assumption]. }
    destruct ch as [[q l]|]; [|constructor].
    destruct (Ch _ eq_refl) as [u U]. constructor; [eexists; exact U|].
    apply (IH _ eq_refl).
  - constructor.
  - intros lo hi n l _ H [A B] _ IH. cbn. constructor; [exact A|]. apply Forall_app. auto.
Qed.

Section Width.
Variable width : char -> option nat.
Variable t : text.

Definition right_line (l : linespan) (s : span) : Prop :=
  linespan_to_span l = s
  /\ (sp_start s < byte_len t -> place width t (ls_start l) /\ place width t (ls_end l)).

Definition right_tok (l : linespan) (s : span) : Prop :=
  linespan_to_span l = s /\ sp_start s < byte_len t
  /\ place width t (ls_start l) /\ place width t (ls_end l).

Lemma right_env : @env_rel _ _ (linespan_env (snd (linespan_stream width t)))
  (span_env (Span (byte_len t) (byte_len t))) right_tok right_line (fun _ _ => True) (fun _ _ => True).
Proof.
  constructor; auto.
  - intros a b a' b' [A1 [A2 [A3 A4]]] [B1 [B2 [B3 B4]]]. split.
    + rewrite <- A1, <- B1. reflexivity.
    + intros _. split; assumption.
  - split.
    + unfold linespan_to_span. cbn. rewrite !linespan_eoi_offset. reflexivity.
    + cbn. lia.
  - intros a a' [<- _]. reflexivity.
Qed.

Lemma tracks_place tr p r : tracks width tr p -> t = p ++ r ->
  place width t (LinePos (lt_offset tr) (lt_line tr) (lt_column tr)).
Proof.
  intros [O [_ [L [b [B C]]]]] T. exists p, r, (lt_line tr), b. rewrite O, C. auto.
Qed.

Lemma utf8_positive c : 1 <= utf8_len c.
Proof. unfold utf8_len. repeat destruct (N.ltb _ _); lia. Qed.

Lemma right_toks q : forall tr p, tracks width tr p -> t = p ++ q ->
  rel_toks right_tok (line_tokens width tr q) (offset_tokens (lt_offset tr) q).
Proof.
  induction q as [|c q IH]; intros tr p T E; cbn [line_tokens offset_tokens]; [constructor|].
  destruct (line_next_span width tr c) as [s tr'] eqn:N.
  destruct (track_step width tr p c s tr' T N) as [S T'].
  assert (lt_offset tr' = lt_offset tr + utf8_len c) as O.
  { destruct T as [O _], T' as [O' _]. rewrite O, O', byte_len_app. cbn. lia. }
  assert (t = (p ++ [c]) ++ q) as E' by (rewrite <- app_assoc; exact E).
  constructor.
  - split; [reflexivity|]. subst s. cbn [snd]. split; [cbn; rewrite O; reflexivity|]. split.
    + cbn. destruct T as [-> _]. rewrite E, byte_len_app. cbn. pose proof (utf8_positive c). lia.
    + split; [apply (tracks_place _ _ _ T E)|apply (tracks_place _ _ _ T' E')].
  - rewrite <- O. apply (IH tr' (p ++ [c])); assumption.
Qed.

Theorem ast_places d : parse_ast_linespan width t = Parsed d ->
  Forall (fun s => place width t (ls_start s) /\ place width t (ls_end s)) (document_spans d).
Proof.
  intros H. pose proof (span_independent width t) as P. rewrite H in P. cbn [project] in P.
  pose proof (exact_document_spans _ _ _ _ (parse_exact _ _ P)) as X.
  assert (rel_parsed (fun _ _ => True) (fun _ _ => True) (rel_doc right_line)
            (parse_ast_linespan width t) (parse_ast_span t)) as K.
  { unfold parse_ast_span, parse_ast_linespan, span_stream, linespan_stream.
    eapply rel_run; [eapply rel_document; exact right_env|].
    apply (right_toks t (LineTracker 0 false 0 0) []); [apply track_start|reflexivity]. }
  rewrite H, P in K. inversion K as [a b D| |]; subst. apply rel_document_spans in D.
  clear - D X. induction D as [|a b l l' [E D] _ IH]; [constructor|].
  inversion X as [|x y [s S] F]; subst. constructor; [|apply IH; assumption].
  destruct S as [p [q [T [N S]]]]. apply D. rewrite T, S. cbn [sp_start]. rewrite !byte_len_app.
  destruct s as [|c s]; [contradiction|]. cbn. pose proof (utf8_positive c). lia.
Qed.
End Width.
