(** [decode::node], and decoding of documents with line spans into documents with byte
    spans. *)

From Coq Require Import NArith ZArith List Bool String Lia.
From Verif Require Import Chars Ast Errors Chumsky Spans Grammar SpanIndep Kdl Decode Scalar Containers
  DecodeSpec AstProps.
Import ListNotations.
Local Open Scope list_scope.

Lemma emit_has {Sp} (e : derror Sp) c : has_errors (emit_error e c) = true.
Proof. destruct c as [es x]. unfold emit_error, has_errors. cbn. destruct es; reflexivity. Qed.

Lemma node_vec {Sp A} (d : node_impl Sp A) n :
  parse (Parsed [n]) (vec_children d) =
  match node_decode d n with
  | Decoded v => Value_of [v]
  | Failed es => Decode_errors es
  | DPanicked => Panic_of
  end.
Proof.
  unfold parse, parse_with_context, vec_children, node_decode. cbn [vec_loop].
  destruct (d n context_new) as [c [a|e|]]; cbn [app].
  - destruct (has_errors c); reflexivity.
  - rewrite emit_has. reflexivity.
  - reflexivity.
Qed.

Lemma node_value {Sp A} (d : node_impl Sp A) n v :
  node_decode d n = Decoded v <-> exists c, d n context_new = (c, DOk v) /\ c_errors c = [].
Proof.
  unfold node_decode. destruct (d n context_new) as [c [a|e|]].
  - unfold has_errors. destruct (c_errors c) eqn:R.
    + split; [intros X; inversion X; subst; eauto|intros [c' [X _]]; congruence].
    + split; [discriminate|intros [c' [X Y]]; congruence].
  - split; [discriminate|intros [c' [X _]]; discriminate].
  - split; [discriminate|intros [c' [X _]]; discriminate].
Qed.

Lemma node_failed {Sp A} (d : node_impl Sp A) n es :
  node_decode d n = Failed es <->
  exists c, (exists v, d n context_new = (c, DOk v) /\ es = c_errors c /\ es <> [])
            \/ (exists e, d n context_new = (c, DErr e) /\ es = c_errors c ++ [e]).
Proof.
  unfold node_decode. destruct (d n context_new) as [c [a|e|]].
  - unfold has_errors, into_errors. destruct (c_errors c) eqn:R.
    + split; [discriminate|]. intros [c' [[v [X [Y Z]]]|[e [X _]]]]; [|discriminate].
      inversion X; subst. congruence.
    + split.
      * intros X. inversion X; subst. exists c. left. exists a. rewrite R.
        repeat split; auto. discriminate.
      * intros [c' [[v [X [Y Z]]]|[e [X _]]]]; [|discriminate]. inversion X; subst. congruence.
  - split.
    + intros X. inversion X; subst. exists c. right. exists e. split; reflexivity.
    + intros [c' [[v [X _]]|[e' [X Y]]]]; [discriminate|]. inversion X; subst. reflexivity.
  - split; [discriminate|]. intros [c' [[v [X _]]|[e' [X Y]]]]; discriminate.
Qed.

(** ** Line spans to byte spans *)

Lemma increasing_map {Sp Q} (g : Sp -> Q) (l : list (spanned text Sp * value Sp)) :
  increasing (map (fun kv => (spanned_map_span g (fst kv), map_value_span g (snd kv))) l) ->
  increasing l.
Proof.
  induction l as [|[[q k] v] l IH]; intros H; [constructor|]. cbn [map] in H.
  inversion H as [|? ? I F]; subst. constructor; [apply IH, I|].
  intros [[q' k'] v'] X.
  apply (F (spanned_map_span g (Spanned q' k'), map_value_span g v')).
  apply in_map_iff. exists (Spanned q' k', v'). split; [reflexivity|exact X].
Qed.

Lemma well_formed_map {Sp Q} (g : Sp -> Q) (n : node Sp) :
  well_formed (map_node_span g n) -> well_formed n.
Proof.
  induction n as [ty nm args props ch IH] using (@node_ind2 Sp). intros W.
  cbn [map_node_span] in W. inversion W as [? ? ? ? ? I C]; subst. constructor.
  - eapply increasing_map, I.
  - intros [q l] ->. cbn [s_value]. specialize (C _ eq_refl). cbn [s_value] in C.
    specialize (IH _ eq_refl). rewrite Forall_map in C.
    cbn [s_value] in IH. rewrite Forall_forall in *. intros x X. exact (IH x X (C x X)).
Qed.

Lemma line_well_formed width t d : parse_ast_linespan width t = Parsed d ->
  Forall (fun sn => well_formed (s_value sn)) d.
Proof.
  intros P. pose proof (span_independent_match width t) as S. rewrite P in S.
  apply parsed_well_formed in S. unfold map_doc_span in S. rewrite Forall_map in S.
  eapply Forall_impl; [|exact S]. intros [q n]. cbn [s_value map_snode_span].
  apply well_formed_map.
Qed.

Lemma line_to_byte width t :
  parse (parse_ast_linespan width t) (vec_children (ast_snode_impl span_of_line)) =
  match parse_ast_linespan width t, parse_ast_span t with
  | Parsed _, Parsed d => Value_of d
  | Rejected errs, _ => Parse_errors errs
  | _, _ => Panic_of
  end.
Proof.
  pose proof (span_independent_match width t) as S.
  unfold parse, parse_with_context.
  destruct (parse_ast_linespan width t) as [d|errs|] eqn:P; [|reflexivity|reflexivity].
  rewrite S. change span_of_line with (pure_span linespan_to_span).
  rewrite (doc_pure linespan_to_span d (line_well_formed _ _ _ P)). reflexivity.
Qed.
