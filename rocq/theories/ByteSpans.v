(** Byte offsets and the UTF-8 encoding. *)

From Coq Require Import NArith PeanoNat List Lia.
From Verif Require Import Chars Ast Errors Chumsky Spans Grammar ErrSpec ErrProps DecodeSpec.
From Verif Require SpanSpec.
Import ListNotations.
Local Open Scope list_scope.

Lemma char_bytes c b : utf8_spec c b -> List.length b = utf8_len c.
Proof.
  intros H. unfold utf8_len.
  destruct H; cbn [List.length];
    repeat match goal with
    | |- context [N.ltb ?a ?b] => destruct (N.ltb_spec a b); try lia
    | |- context [N.leb ?a ?b] => destruct (N.leb_spec a b); try lia
    end; reflexivity.
Qed.

Lemma text_bytes t b : utf8_text t b -> List.length b = byte_len t.
Proof.
  induction 1 as [|c t b bs C _ IH]; [reflexivity|]. rewrite app_length, (char_bytes c b C), IH. reflexivity.
Qed.

Lemma utf8_text_split s : forall t b, utf8_text (s ++ t) b ->
  exists b1 b2, b = b1 ++ b2 /\ utf8_text s b1 /\ utf8_text t b2.
Proof.
  induction s as [|c s IH]; intros t b H; cbn [app] in H.
  - exists [], b. repeat split; [constructor|exact H].
  - inversion H as [|? ? x bs C T]; subst. destruct (IH _ _ T) as (b1 & b2 & -> & S1 & S2).
    exists (x ++ b1), b2. rewrite app_assoc. repeat split; [constructor; assumption|exact S2].
Qed.

(** The bytes between the ends of the span of [s] are those of [s]. *)
Lemma slice_bytes p s q b : utf8_text (p ++ s ++ q) b ->
  utf8_text s (firstn (byte_len (p ++ s) - byte_len p) (skipn (byte_len p) b)).
Proof.
  intros H. destruct (utf8_text_split _ _ _ H) as (b1 & b2 & -> & P & R).
  destruct (utf8_text_split _ _ _ R) as (b3 & b4 & -> & S & _).
  assert (A : utf8_text (p ++ s) (b1 ++ b3)).
  { clear - P S. induction P as [|c t b bs C _ IH]; [exact S|]. rewrite <- app_assoc. cbn [app].
    now constructor. }
  apply text_bytes in A. rewrite <- A, <- (text_bytes _ _ P), app_length.
  rewrite skipn_app, skipn_all, Nat.sub_diag. cbn [skipn app].
  replace (List.length b1 + List.length b3 - List.length b1) with (List.length b3) by lia.
  rewrite firstn_app, firstn_all, Nat.sub_diag. cbn [firstn]. rewrite app_nil_r. exact S.
Qed.

Lemma byte_len_plus s : forall t, byte_len (s ++ t) = byte_len s + byte_len t.
Proof.
  induction s as [|c s IH]; intros t; [reflexivity|]. cbn [app byte_len]. rewrite IH. lia.
Qed.

(** [&text[span.0..span.1]]. *)
Lemma source_bytes t sp s b : SpanSpec.source t sp s -> utf8_text t b ->
  sp_start sp <= sp_end sp <= List.length b
  /\ utf8_text s (firstn (sp_end sp - sp_start sp) (skipn (sp_start sp) b)).
Proof.
  intros (p & q & -> & _ & ->) H. cbn [sp_start sp_end]. split; [|exact (slice_bytes p s q b H)].
  rewrite (text_bytes _ _ H), app_assoc, !byte_len_plus. lia.
Qed.

Lemma covers_bytes t sp s b : covers t sp s -> utf8_text t b ->
  sp_start sp <= sp_end sp <= List.length b
  /\ utf8_text s (firstn (sp_end sp - sp_start sp) (skipn (sp_start sp) b)).
Proof.
  intros (p & q & -> & ->) H. cbn [sp_start sp_end]. split; [|exact (slice_bytes p s q b H)].
  rewrite (text_bytes _ _ H), app_assoc, !byte_len_plus. lia.
Qed.

Lemma error_slices t errs b : parse_ast_span t = Rejected errs -> utf8_text t b ->
  Forall (fun e => Forall (fun sp => sp_start sp <= sp_end sp <= List.length b
      /\ exists s, utf8_text s (firstn (sp_end sp - sp_start sp) (skipn (sp_start sp) b)))
    (perror_spans e)) errs.
Proof.
  intros H U. refine (Forall_impl _ _ (error_spans t errs H)). intros e K.
  refine (Forall_impl _ _ K). intros sp [s C]. destruct (covers_bytes t sp s b C U) as [A B].
  split; [exact A|exists s; exact B].
Qed.
