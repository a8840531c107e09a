(** The order of the errors of [parse_ast]. *)

From Coq Require Import NArith PeanoNat List Bool String Lia.
From Verif Require Import Chars Ast Errors Chumsky Spans Grammar SpanProps SpanIndep ErrAt ErrProps OrderSpec OrderCalc OrderList.
Import ListNotations.
Local Open Scope list_scope.

Lemma run_whole {A} t (p : parser span A) errs :
  (forall ts errs, wt t ts -> run p ts = Rejected errs -> listed t (pos t ts) errs) ->
  run p (toks_at [] t) = Rejected errs -> listed t (pos t (toks_at [] t)) errs.
Proof. intros H. apply H. exists [], t. auto. Qed.

Lemma parse_listed t errs : parse_ast_span t = Rejected errs -> listed t (pos t (toks_at [] t)) errs.
Proof. exact (run_whole t _ errs (document_listed t)). Qed.

Theorem errors_in_order t errs : parse_ast_span t = Rejected errs -> in_order errs.
Proof. intros H. eapply listed_order, parse_listed, H. Qed.

Theorem line_errors_in_order width t errs : parse_ast_linespan width t = Rejected errs ->
  in_order (map (map_perror_span linespan_to_span) errs).
Proof. intros H. eapply errors_in_order, line_rejected, H. Qed.

Theorem errors_pointed t es e : parse_ast_span t = Rejected (es ++ [e]) -> Forall pointed es.
Proof. intros H. eapply listed_pointed; [apply parse_listed, H|reflexivity]. Qed.

Lemma pointed_closed e : pointed e -> ~ is_unclosed e.
Proof. intros (a & b & X & _) U. destruct e; try contradiction. discriminate. Qed.

Theorem unclosed_last t es e es' : parse_ast_span t = Rejected (es ++ e :: es') -> is_unclosed e -> es' = [].
Proof.
  intros H U. destruct es' as [|x es' _] using rev_ind; [reflexivity|]. exfalso.
  change (es ++ e :: es' ++ [x]) with (es ++ (e :: es') ++ [x]) in H. rewrite app_assoc in H.
  apply errors_pointed in H. apply Forall_app in H. destruct H as [_ H]. inversion H; subst. eapply pointed_closed; eassumption.
Qed.

Lemma order_nodup errs : in_order errs -> NoDup errs.
Proof.
  induction 1 as [|e es F _ IH]; constructor; [|exact IH]. intros I. rewrite Forall_forall in F. destruct (F e I) as [X _]. lia.
Qed.

Theorem errors_once t errs : parse_ast_span t = Rejected errs -> NoDup errs.
Proof. intros H. eapply order_nodup, errors_in_order, H. Qed.

Theorem errors_bounded t errs : parse_ast_span t = Rejected errs -> List.length errs <= S (byte_len t).
Proof. intros H. eapply listed_count, parse_listed, H. Qed.

(** ** A text with many errors *)

Definition five_text : text := str "a b ""\u{110000}\u"" c ""x".

Lemma five_errors : exists errs, parse_ast_span five_text = Rejected errs /\ map (fun e => (starts e, stops e)) errs
  = [(2, 3); (7, 15); (17, 18); (19, 20); (21, 23)].
Proof. eexists. split; vm_compute; reflexivity. Qed.

Lemma five_unclosed : exists es e, parse_ast_span five_text = Rejected (es ++ [e]) /\ es <> [] /\ is_unclosed e.
Proof.
  let r := eval vm_compute in (parse_ast_span five_text) in
  match r with Rejected [?a; ?b; ?c; ?d; ?e] => exists [a; b; c; d], e end.
  split; [vm_compute; reflexivity|]. split; [discriminate|exact I].
Qed.
