(** C05: escaped strings denote their contents. *)

From Coq Require Import NArith List String Lia.
From Verif Require Import Chars Ast Errors Chumsky Spans Grammar Kdl KdlText Layout Observe PrintMeans LexProps ItemProps.
Import ListNotations.
Local Open Scope list_scope.

(** [string_body s t]: the characters [t] written as [s], each of them either
    itself or one of the escapes. *)
Theorem C05_denotes : forall s t, string_body s t ->
  reads (str "n " ++ 0x22%N :: s ++ [0x22%N]) (n_arg (LString t)).
Proof. exact string_reads. Qed.
Print Assumptions C05_denotes.

(** Every string has a spelling. *)
Theorem C05_every_string : forall t, string_body (print_chars t) t.
Proof. exact print_chars_body. Qed.
Print Assumptions C05_every_string.

(** The literal ends at the first unescaped quote: whatever follows, a text that
    begins with this string and is accepted has it as the first argument, unless
    it is a property name. *)
Theorem C05_first_quote : forall s t r D,
  reads (str "n " ++ 0x22%N :: s ++ 0x22%N :: r) D -> string_body s t ->
  hd_error r <> Some 0x3D%N ->
  exists args ps ch D', D = Spanned tt (Node None (Spanned tt (str "n"))
    (Value None (Spanned tt (LString t)) :: args) ps ch) :: D'.
Proof. exact quoted_first. Qed.
Print Assumptions C05_first_quote.

(** Without such a quote, or with a wrong escape before it, the text is
    rejected. *)
Theorem C05_unclosed : forall x, (forall s t r, string_body s t -> x <> s ++ 0x22%N :: r) ->
  rejected (str "n " ++ 0x22%N :: x).
Proof. exact quoted_unclosed. Qed.
Print Assumptions C05_unclosed.

(** Spelling and contents determine each other at a given place. *)
Theorem C05_unique : forall s t, string_body s t -> forall s' t' r r', string_body s' t' ->
  s ++ 0x22%N :: r = s' ++ 0x22%N :: r' -> s = s' /\ t = t' /\ r = r'.
Proof. exact string_body_unique. Qed.
Print Assumptions C05_unique.

Example C05_example : string_body (str "a\""\n\u{e9}") [0x61; 0x22; 0x0A; 0xE9]%N.
Proof.
  apply SB_char; [discriminate|discriminate|].
  apply (SB_escape (str """")); [constructor; cbn; tauto|].
  apply (SB_escape (str "n")); [constructor; cbn; tauto|].
  apply (SB_escape (str "u{e9}") 0xE9%N [] []); [|constructor].
  apply (Esc_unicode (str "e9")); [cbn; lia| |split; [lia|lia]].
  apply (DV_snoc 16 (str "e") 0x39%N 14 9).
  - apply (DV_snoc 16 [] 0x65%N 0 14); [constructor|]. split; [lia|left; reflexivity].
  - split; [lia|left; reflexivity].
Qed.

Example C05_example_unclosed : forall s t r, string_body s t ->
  str "ab\q" <> s ++ 0x22%N :: r.
Proof.
  intros s t r _ Q. assert (In 0x22%N (str "ab\q")) as H.
  { rewrite Q. apply in_or_app. right. left. reflexivity. }
  cbn in H. intuition discriminate.
Qed.
