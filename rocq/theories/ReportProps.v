(** The errors that [parse_ast] and [parse] return. *)

From Coq Require Import NArith PeanoNat List Bool String Lia.
From Verif Require Import Chars Ast Errors Chumsky Spans Grammar SpanProps SpanIndep ErrSpec ErrGrammar ErrProps
  Decode ErrorText DecodeSpec Report ReportSpec ByteSpans SpanSpec LineSpec PointSpec PointParse
  DeriveDef Derive DeriveSpec FieldSpec StructSpec HandSpec PointProps AlikeSpec AlikeParse DeriveConformance DeriveSample Scalar Containers.
Import ListNotations.
Local Open Scope list_scope.

Local Strategy -10 [parse_ast_bytes parse_ast_lines parse_text parse_text_lines].
Local Strategy 100 [parse_ast_span parse_ast_linespan].

(** ** Spans *)

Lemma covers_marks t sp s : covers t sp s -> marks t (span_into sp) s.
Proof.
  intros (p & q & -> & ->). exists p, q. unfold span_into. cbn [ss_offset ss_length sp_start sp_end].
  rewrite byte_len_plus. repeat split; lia.
Qed.

Lemma source_marks t sp s : source t sp s -> marks t (span_into sp) s /\ s <> [].
Proof. intros (p & q & E & N & ->). split; [|exact N]. apply covers_marks. exists p, q. auto. Qed.

Lemma covers_length t sp s : covers t sp s -> span_length sp = byte_len s.
Proof.
  intros (p & q & -> & ->). unfold span_length. cbn [sp_start sp_end]. rewrite byte_len_plus. lia.
Qed.

Lemma line_into ls : linespan_into ls = span_into (linespan_to_span ls).
Proof. reflexivity. Qed.

Lemma marks_bytes t m s b : marks t m s -> utf8_text t b ->
  ss_offset m + ss_length m <= List.length b /\ utf8_text s (marked b m).
Proof.
  intros (p & q & -> & O & L) H. unfold marked. rewrite O, L. split.
  - rewrite (text_bytes _ _ H), !byte_len_plus. lia.
  - pose proof (slice_bytes p s q b H) as X. rewrite byte_len_plus in X.
    replace (byte_len p + byte_len s - byte_len p) with (byte_len s) in X by lia. exact X.
Qed.

(** ** Reports of the parser *)

Lemma some_str s l : str (String s l) <> [].
Proof. discriminate. Qed.

Lemma right_report t e : error_right t e -> report_on t (parse_report span_into e).
Proof.
  intros H. pose proof (right_spans t e H) as K.
  destruct e as [l sp f x|l oa o ea x f|l sp m|l sp m h]; cbn [error_right perror_spans] in *;
    unfold report_on, parse_report, into_labels;
    cbn [r_message r_labels perror_message perror_labels map fst snd].
  - inversion K as [|? ? [s C] _]; subst. split; [discriminate|]. split; [discriminate|].
    constructor; [|constructor]. split; [|exists s; apply covers_marks, C].
    destruct H as [_ [_ L]]. destruct L; discriminate.
  - inversion K as [|? ? [s C] K2]; subst. inversion K2 as [|? ? [s2 C2] _]; subst.
    split; [discriminate|]. split; [discriminate|].
    constructor; [split; [discriminate|]; exists s; apply covers_marks, C|].
    constructor; [split; [discriminate|]; exists s2; apply covers_marks, C2|constructor].
  - inversion K as [|? ? [s C] _]; subst. destruct H as [_ M]. destruct M.
    split; [discriminate|]. split; [discriminate|].
    constructor; [|constructor]. split; [discriminate|exists s; apply covers_marks, C].
  - inversion K as [|? ? [s C] _]; subst. destruct H as [_ M].
    destruct M; (split; [discriminate|]; split; [discriminate|];
    constructor; [|constructor]; split; [discriminate|exists s; apply covers_marks, C]).
Qed.

Lemma answer_bad {Sp} (into : Sp -> source_span) file t ast e :
  parse_ast_answer into file t ast = Bad e ->
  exists errs, ast = Rejected errs /\ e = Error file t (map (parse_report into) errs).
Proof. destruct ast; cbn; try discriminate. intros [= <-]. eauto. Qed.

Lemma ast_errors file t ast e :
  (forall errs, ast = Rejected errs -> errs <> []) ->
  (forall errs, ast = Rejected errs -> Forall (error_right t) errs) ->
  parse_ast_answer span_into file t ast = Bad e ->
  error_for file t e /\ Forall (report_on t) (e_related e).
Proof.
  intros N K H. destruct (answer_bad _ _ _ _ _ H) as (errs & R & ->). unfold error_for. cbn [e_name e_source e_related].
  split.
  - repeat split. intros X. apply map_eq_nil in X. exact (N errs R X).
  - rewrite Forall_map. refine (Forall_impl _ _ (K errs R)). intros x. apply right_report.
Qed.

Lemma bytes_errors file t e : parse_ast_bytes file t = Bad e ->
  error_for file t e /\ Forall (report_on t) (e_related e).
Proof. exact (ast_errors file t (parse_ast_span t) e (rejected_some t) (parse_errors_right t)). Qed.

Lemma report_map {S1 S2} (i1 : S1 -> source_span) (i2 : S2 -> source_span) g x :
  (forall s, i1 s = i2 (g s)) -> parse_report i1 x = parse_report i2 (map_perror_span g x).
Proof.
  intros E. destruct x; unfold parse_report, into_labels; cbn; rewrite ?E; reflexivity.
Qed.

Lemma project_errors file t (ast1 : parsed linespan (document linespan)) ast2 :
  ast2 = match ast1 with
         | Parsed d => Parsed (map_doc_span linespan_to_span d)
         | Rejected errs => Rejected (map (map_perror_span linespan_to_span) errs)
         | Panicked => Panicked
         end ->
  same_error (fun d1 d2 => map_doc_span linespan_to_span d1 = d2)
    (parse_ast_answer linespan_into file t ast1) (parse_ast_answer span_into file t ast2).
Proof.
  intros ->. destruct ast1 as [d|errs|]; cbn [parse_ast_answer same_error]; auto.
  f_equal. rewrite map_map. apply map_ext. intros x. apply report_map. exact line_into.
Qed.

Lemma lines_errors width file t :
  same_error (fun d1 d2 => map_doc_span linespan_to_span d1 = d2)
    (parse_ast_lines width file t) (parse_ast_bytes file t).
Proof. exact (project_errors file t _ _ (span_independent_match width t)). Qed.

Lemma same_bad {A B} (P : A -> B -> Prop) x y e : same_error P x y -> x = Bad e -> y = Bad e.
Proof. intros K ->. destruct y; cbn [same_error] in K; try contradiction. subst. reflexivity. Qed.

Lemma lines_bad width file t e : parse_ast_lines width file t = Bad e -> parse_ast_bytes file t = Bad e.
Proof. exact (same_bad _ _ _ e (lines_errors width file t)). Qed.

Lemma marked_bytes file t e b : parse_ast_bytes file t = Bad e -> utf8_text t b ->
  Forall (fun r => Forall (fun l => ss_offset (snd l) + ss_length (snd l) <= List.length b
      /\ exists s, utf8_text s (marked b (snd l))) (r_labels r)) (e_related e).
Proof.
  intros H U. destruct (bytes_errors file t e H) as [_ K]. refine (Forall_impl _ _ K).
  intros r (_ & _ & L). refine (Forall_impl _ _ L). intros l [_ [s M]].
  destruct (marks_bytes t _ s b M U). eauto.
Qed.

(** ** [parse] *)

Lemma outcome_some {Sp A} ast f (d : children_impl Sp A) es :
  parse_with_context ast f d = Decode_errors es -> es <> [].
Proof.
  unfold parse_with_context. destruct ast as [doc|errs|]; try discriminate.
  destruct (d doc (f context_new)) as [c [v|e|]]; try discriminate.
  - unfold has_errors. destruct (c_errors c) eqn:E; [discriminate|]. intros [= <-].
    unfold into_errors. rewrite E. discriminate.
  - intros [= <-]. unfold into_errors, emit_error. cbn [c_errors]. destruct (c_errors c); discriminate.
Qed.

Lemma outcome_parse {Sp A} ast f (d : children_impl Sp A) es :
  parse_with_context ast f d = Parse_errors es -> ast = Rejected es.
Proof.
  unfold parse_with_context. destruct ast as [doc|errs|]; try discriminate.
  - destruct (d doc (f context_new)) as [c [v|e|]]; try discriminate. destruct (has_errors c); discriminate.
  - intros [= <-]. reflexivity.
Qed.

Lemma answer_error {Sp A} (into : Sp -> source_span) other file t ast f (d : children_impl Sp A) e :
  (forall errs, ast = Rejected errs -> errs <> []) ->
  parse_answer into other file t (parse_with_context ast f d) = Bad e -> error_for file t e.
Proof.
  intros N H.
  destruct (parse_with_context ast f d) as [v|es|es|] eqn:E; cbn [parse_answer] in H; try discriminate;
    injection H as <-; unfold error_for; cbn [e_name e_source e_related]; repeat split; intros X;
    apply map_eq_nil in X.
  - apply outcome_parse in E. exact (N es E X).
  - exact (outcome_some _ _ _ _ E X).
Qed.

Lemma line_rejected_some width t errs : parse_ast_linespan width t = Rejected errs -> errs <> [].
Proof.
  intros H X. pose proof (rejected_some t _ (line_rejected width t errs H)) as K. rewrite X in K. exact (K eq_refl).
Qed.

Lemma parse_errors_for A other file t f (d : children_impl span A) e :
  parse_text other file t f d = Bad e -> error_for file t e.
Proof. exact (answer_error span_into other file t (parse_ast_span t) f d e (rejected_some t)). Qed.

Lemma parse_lines_errors_for A width other file t f (d : children_impl linespan A) e :
  parse_text_lines width other file t f d = Bad e -> error_for file t e.
Proof.
  exact (answer_error linespan_into other file t (parse_ast_linespan width t) f d e (line_rejected_some width t)).
Qed.

(** A text that is no document: the error is that of [parse_ast]. *)
Lemma answer_passes {Sp A} (into : Sp -> source_span) other file t ast f (d : children_impl Sp A) e :
  parse_ast_answer into file t ast = Bad e ->
  parse_answer into other file t (parse_with_context ast f d) = Bad e.
Proof. intros H. destruct (answer_bad _ _ _ _ _ H) as (errs & -> & ->). reflexivity. Qed.

Lemma parse_passes A other file t f (d : children_impl span A) e :
  parse_ast_bytes file t = Bad e -> parse_text other file t f d = Bad e.
Proof. exact (answer_passes span_into other file t (parse_ast_span t) f d e). Qed.

Lemma parse_lines_passes A width other file t f (d : children_impl linespan A) e :
  parse_ast_lines width file t = Bad e -> parse_text_lines width other file t f d = Bad e.
Proof. exact (answer_passes linespan_into other file t (parse_ast_linespan width t) f d e). Qed.

(** ** Reports of the decoder *)

Lemma pointed_report {Sp} (into : Sp -> source_span) other t e sp s :
  error_span e = Some sp -> marks t (into sp) s -> s <> [] -> report_at t (decode_report into other e).
Proof.
  intros E M N. destruct e; cbn [error_span] in E; try discriminate; injection E as ->;
    unfold decode_report, into_labels; cbn [derror_labels map fst snd];
    do 3 eexists; (split; [reflexivity|]); (split; [discriminate|]); split; eauto.
Qed.

Lemma decoded_reports {Sp A} (into : Sp -> source_span) other file t ast (d : children_impl Sp A) doc e :
  ast = Parsed doc -> parse_answer into other file t (parse ast d) = Bad e ->
  (forall es, parse ast d = Decode_errors es -> forall x, In x es ->
     (exists sp s, error_span x = Some sp /\ marks t (into sp) s /\ s <> []) \/ exists m, x = DMissingNode m) ->
  Forall (fun r => report_at t r \/ r_labels r = []
    /\ exists es m, parse ast d = Decode_errors es /\ In (DMissingNode m) es /\ r_message r = m) (e_related e).
Proof.
  intros D H K.
  destruct (parse ast d) as [v|es|es|] eqn:E; cbn [parse_answer] in H; try discriminate.
  - unfold parse in E. apply outcome_parse in E. congruence.
  - injection H as <-. cbn [e_related]. rewrite Forall_map. apply Forall_forall. intros x I.
    destruct (K es eq_refl x I) as [(sp & s & X & M & N)|[m ->]].
    + left. exact (pointed_report _ _ _ _ _ _ X M N).
    + right. split; [reflexivity|]. exists es, m. auto.
Qed.

Lemma parse_reports_at A other file t (d : children_impl span A) doc e :
  (forall ns, reports (points_or_missing (nodes_spans ns)) (d ns)) ->
  parse_ast_span t = Parsed doc -> parse_text other file t (fun c => c) d = Bad e ->
  Forall (fun r => report_at t r \/ r_labels r = []
    /\ exists es m, parse (parse_ast_span t) d = Decode_errors es /\ In (DMissingNode m) es
       /\ r_message r = m) (e_related e).
Proof.
  intros W D H. refine (decoded_reports span_into other file t (parse_ast_span t) d doc e D H _). intros es E x I.
  destruct (parse_points A t d es W E x I) as [(sp & s & X & S)|M]; [left|right; exact M].
  exists sp, s. split; [exact X|]. apply source_marks, S.
Qed.

Lemma parse_lines_reports_at A width other file t (d : children_impl linespan A) doc e :
  (forall ns, reports (points_or_missing (nodes_spans ns)) (d ns)) ->
  parse_ast_linespan width t = Parsed doc -> parse_text_lines width other file t (fun c => c) d = Bad e ->
  Forall (fun r => report_at t r \/ r_labels r = []
    /\ exists es m, parse (parse_ast_linespan width t) d = Decode_errors es /\ In (DMissingNode m) es
       /\ r_message r = m) (e_related e).
Proof.
  intros W D H.
  refine (decoded_reports linespan_into other file t (parse_ast_linespan width t) d doc e D H _). intros es E x I.
  destruct (parse_points_lines A width t d es W E x I) as [(sp & s & X & S & _)|M]; [left|right; exact M].
  exists sp, s. split; [exact X|]. rewrite line_into. apply source_marks, S.
Qed.

(** Derived decoders. *)
Lemma derived_reports_at L kebab (i : src_item span L) d g other file t doc e :
  Forall pointing (types_in i) -> decode_derive kebab i = Some d -> dr_children d = Some g ->
  parse_ast_span t = Parsed doc -> parse_text other file t (fun c => c) g = Bad e ->
  Forall (fun r => report_at t r \/ r_labels r = []
    /\ exists es m, parse (parse_ast_span t) g = Decode_errors es /\ In (DMissingNode m) es
       /\ r_message r = m) (e_related e).
Proof.
  intros W D G. apply parse_reports_at. exact (pd_children _ (derive_points _ _ kebab i d W D) g G).
Qed.

(** ** The type of spans *)

Lemma alike_parse_report x y : perror_alike same_bytes x y ->
  parse_report linespan_into x = parse_report span_into y.
Proof. intros H. destruct H; unfold same_bytes in *; subst; reflexivity. Qed.

Lemma alike_decode_report other x y : error_alike same_bytes x y ->
  decode_report linespan_into other x = decode_report span_into other y.
Proof. intros H. destruct H; unfold same_bytes in *; subst; reflexivity. Qed.

Lemma map_alike {A B C} (Q : A -> B -> Prop) (f : A -> C) (g : B -> C) l1 l2 :
  (forall a b, Q a b -> f a = g b) -> Forall2 Q l1 l2 -> map f l1 = map g l2.
Proof. intros E. induction 1; cbn; [reflexivity|]. f_equal; auto. Qed.

Lemma answer_same A B (P : A -> B -> Prop) other file t o1 o2 :
  outcome_alike same_bytes P o1 o2 ->
  same_error P (parse_answer linespan_into other file t o1) (parse_answer span_into other file t o2).
Proof.
  intros [a b X|e1 e2 X|e1 e2 X|]; cbn [parse_answer same_error]; auto.
  - f_equal. exact (map_alike _ _ _ _ _ alike_parse_report X).
  - f_equal. exact (map_alike _ _ _ _ _ (alike_decode_report other) X).
Qed.

Lemma span_type_answer A B (P : A -> B -> Prop) width other file t f1 f2 d1 d2 :
  ext_alike same_bytes f1 f2 -> children_impl_alike same_bytes P d1 d2 ->
  same_error P (parse_text_lines width other file t f1 d1) (parse_text other file t f2 d2).
Proof. intros F D. exact (answer_same _ _ _ other file t _ _ (span_type_parse P width t f1 f2 d1 d2 F D)). Qed.

(** ** The errors are those of the decoder *)

Lemma answer_values A other file t f (d : children_impl span A) v :
  parse_text other file t f d = Good v <-> parse_with_context (parse_ast_span t) f d = Value_of v.
Proof.
  unfold parse_text. generalize (parse_with_context (parse_ast_span t) f d). intros [w|es|es|]; cbn [parse_answer];
    split; intros H; try discriminate; injection H as ->; reflexivity.
Qed.

Lemma answer_reports A other file t f (d : children_impl span A) es :
  parse_with_context (parse_ast_span t) f d = Decode_errors es ->
  exists e, parse_text other file t f d = Bad e
  /\ Forall2 (fun x r => r_message r = ErrorText.derror_message other x /\ r_help r = None
       /\ map fst (r_labels r) = map fst (derror_labels x)) es (e_related e).
Proof.
  unfold parse_text. intros ->. cbn [parse_answer]. eexists. split; [reflexivity|]. cbn [e_related].
  induction es as [|x es IH]; cbn [map]; constructor; [|exact IH].
  unfold decode_report, into_labels. cbn [r_message r_help r_labels]. rewrite map_map. auto.
Qed.

Lemma answer_parse_reports file t errs : parse_ast_span t = Rejected errs ->
  exists e, parse_ast_bytes file t = Bad e
  /\ Forall2 (fun x r => r_message r = perror_message x /\ r_help r = perror_help x
       /\ map fst (r_labels r) = map fst (perror_labels x)) errs (e_related e).
Proof.
  unfold parse_ast_bytes. intros ->. cbn [parse_ast_answer]. eexists. split; [reflexivity|]. cbn [e_related].
  induction errs as [|x es IH]; cbn [map]; constructor; [|exact IH].
  unfold parse_report, into_labels. cbn [r_message r_help r_labels]. rewrite map_map. auto.
Qed.
