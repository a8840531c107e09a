(** Samples for C70. *)

From Coq Require Import NArith List String Lia.
From Verif Require Import Chars Ast Errors Chumsky Spans Grammar Kdl EarlySpec.
Import ListNotations.
Local Open Scope list_scope.

(** A text with a comment and a raw string, and a brace too many at its end. *)
Definition early_part : text := str "a /*c*/ r" ++ [0x22%N] ++ str "x" ++ [0x22%N] ++ str " ".
Definition early_source : text := early_part ++ str "}".


Lemma early_comments : comments_end early_source.
Proof.
  intros u w H.
  repeat (destruct u as [|? u]; [try discriminate H|injection H as _ H]); try (destruct u; discriminate H).
  cbn in H. injection H as H. subst w. exists (str "/*" ++ str "c*/"), (skipn 7 early_source). split; [|reflexivity].
  constructor. apply BR_char; [apply BR_end|discriminate|intros _; discriminate].
Qed.

Lemma early_raw : raw_strings_end early_source.
Proof.
  intros u n w H.
  repeat (destruct u as [|? u]; [try discriminate H|injection H as _ H]); try (destruct u; discriminate H).
  destruct n as [|n]; [|discriminate H]. cbn in H. injection H as H. subst w.
  exists (str "x"), (str " }"). reflexivity.
Qed.

Lemma early_escapes : escapes_fit early_source.
Proof.
  intros u w H.
  repeat (destruct u as [|? u]; [try discriminate H|injection H as _ H]); try (destruct u; discriminate H).
Qed.

Lemma early_names : no_signed_name early_source.
Proof.
  intros u c d w s C D W H.
  repeat (destruct u as [|? u]; [try (injection H as H1 _; subst c; destruct C; discriminate)|injection H as _ H]);
    try (destruct u; discriminate H).
Qed.

Lemma early_tidy : tidy early_source.
Proof. exact (conj early_comments (conj early_raw (conj early_escapes early_names))). Qed.

Lemma early_accepted : exists d, parse_ast_span (early_part ++ []) = Parsed d.
Proof. eexists. vm_compute. reflexivity. Qed.

Lemma early_rejected : exists found exp,
  parse_ast_span (early_part ++ str "}") = Rejected [EUnexpected None (Span 13 14) found exp].
Proof. eexists. eexists. vm_compute. reflexivity. Qed.

(** A raw string without an end is taken for an identifier: the error is at the
    quotation mark, which is right where it is. *)
Definition raw_part : text := str "a r" ++ [0x22%N].

Lemma raw_early : exists m q q' d es sp found exp, parse_ast_span (m ++ q') = Parsed d
  /\ parse_ast_span (m ++ q) = Rejected es /\ In (EUnexpected None sp found exp) es /\ sp_start sp < byte_len m
  /\ comments_end (m ++ q) /\ escapes_fit (m ++ q) /\ no_signed_name (m ++ q).
Proof.
  exists raw_part, [], [0x22%N]. eexists. eexists. exists (Span 3 4), (TChar 0x22%N). eexists.
  split; [vm_compute; reflexivity|]. split; [vm_compute; reflexivity|].
  split; [right; left; reflexivity|]. split; [vm_compute; lia|]. rewrite app_nil_r. unfold raw_part. split; [|split].
  - intros u w H. repeat (destruct u as [|? u]; [try discriminate H|injection H as _ H]); try (destruct u; discriminate H).
  - intros u w H. repeat (destruct u as [|? u]; [try discriminate H|injection H as _ H]); try (destruct u; discriminate H).
  - intros u c d w s C D W H.
    repeat (destruct u as [|? u]; [try (injection H as H1 _; subst c; destruct C; discriminate)|injection H as _ H]);
      try (destruct u; discriminate H).
Qed.

(** A number with a sign before an equals sign is taken for an identifier that is
    its sign: the error is at its first digit. *)
Lemma name_early : exists m q q' d es sp found exp, parse_ast_span (m ++ q') = Parsed d
  /\ parse_ast_span (m ++ q) = Rejected es /\ In (EUnexpected None sp found exp) es /\ sp_start sp < byte_len m
  /\ comments_end (m ++ q) /\ raw_strings_end (m ++ q) /\ escapes_fit (m ++ q).
Proof.
  exists (str "a -1"), (str "=2"), []. eexists. eexists. exists (Span 3 4), (TChar 0x31%N). eexists.
  split; [vm_compute; reflexivity|]. split; [vm_compute; reflexivity|].
  split; [right; left; reflexivity|]. split; [vm_compute; lia|]. split; [|split].
  - intros u w H. repeat (destruct u as [|? u]; [try discriminate H|injection H as _ H]); try (destruct u; discriminate H).
  - intros u n w H. repeat (destruct u as [|? u]; [try discriminate H|injection H as _ H]); try (destruct u; discriminate H).
  - intros u w H. repeat (destruct u as [|? u]; [try discriminate H|injection H as _ H]); try (destruct u; discriminate H).
Qed.

(** A comment that is not closed at its level: the parser gives up at "}", but the comment
    could still be closed after it. *)
Lemma comment_early : exists m q q' d es sp found exp, parse_ast_span (m ++ q') = Parsed d
  /\ parse_ast_span (m ++ q) = Rejected es /\ In (EUnexpected None sp found exp) es /\ sp_start sp < byte_len m
  /\ raw_strings_end (m ++ q) /\ escapes_fit (m ++ q) /\ no_signed_name (m ++ q).
Proof.
  exists (str "a /*/*/}"), [], (str "*/*/"). eexists. eexists. exists (Span 7 8), (TChar 0x7D%N). eexists.
  split; [vm_compute; reflexivity|]. split; [vm_compute; reflexivity|].
  split; [left; reflexivity|]. split; [vm_compute; lia|]. rewrite app_nil_r. split; [|split].
  - intros u n w H. repeat (destruct u as [|? u]; [try discriminate H|injection H as _ H]); try (destruct u; discriminate H).
  - intros u w H. repeat (destruct u as [|? u]; [try discriminate H|injection H as _ H]); try (destruct u; discriminate H).
  - intros u c d w s C D W H.
    repeat (destruct u as [|? u]; [try (injection H as H1 _; subst c; destruct C; discriminate)|injection H as _ H]);
      try (destruct u; discriminate H).
Qed.
