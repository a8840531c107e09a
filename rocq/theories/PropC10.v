(** C10: number literals keep sign, digits and radix. *)

From Coq Require Import NArith List String Lia.
From Verif Require Import Chars Ast Errors Chumsky Spans Grammar Kdl KdlText Layout Observe Number ItemProps NumProps.
Import ListNotations.
Local Open Scope list_scope.

Theorem C10_integer : forall sg ds, opt_sign_text sg -> digits_of 10 ds ->
  reads (str "n " ++ sg ++ ds) (n_arg (LInt Dec (sg ++ without_underscores ds))).
Proof. exact int_reads. Qed.
Print Assumptions C10_integer.

Theorem C10_radix : forall sg x n r ds, opt_sign_text sg ->
  In (x, n, r) [(0x62, 2, Bin); (0x6F, 8, Oct); (0x78, 16, Hex)]%N -> digits_of n ds ->
  reads (str "n " ++ sg ++ 0x30%N :: x :: ds) (n_arg (LInt r (sg ++ without_underscores ds))).
Proof. exact radix_reads. Qed.
Print Assumptions C10_radix.

Theorem C10_decimal : forall sg ds f e, opt_sign_text sg -> digits_of 10 ds ->
  f = [] \/ (exists fd, f = 0x2E%N :: fd /\ digits_of 10 fd) ->
  e = [] \/ (exists y s ed, e = y :: s ++ ed /\ (y = 0x65%N \/ y = 0x45%N) /\ opt_sign_text s
     /\ digits_of 10 ed) ->
  f ++ e <> [] ->
  reads (str "n " ++ sg ++ ds ++ f ++ e)
    (n_arg (LDecimal (sg ++ without_underscores (ds ++ f ++ e)))).
Proof. exact decimal_reads. Qed.
Print Assumptions C10_decimal.

(** Conversely, an accepted word that begins like a number is one as a whole
    ([number_text] is the grammar's rule). *)
Theorem C10_only : forall b rest D sg d u, reads (str "n " ++ b ++ rest) D ->
  b = sg ++ d :: u -> opt_sign_text sg -> digit_char 10 d ->
  Forall word_char b -> ~ In 0xFEFF%N b -> LayoutMeans.stops rest ->
  exists l args ps ch D', number_text b l
    /\ D = Spanned tt (Node None (Spanned tt (str "n")) (Value None (Spanned tt l) :: args) ps ch)
         :: D'.
Proof. exact number_only. Qed.
Print Assumptions C10_only.

(** It is Decimal exactly if there is a point, or an exponent letter that is not
    a hexadecimal digit. *)
Theorem C10_decimal_iff : forall s l, number_text s l ->
  ((exists t, l = LDecimal t) <->
   In 0x2E%N s \/ ((In 0x65%N s \/ In 0x45%N s)
                   /\ forall sg x t, opt_sign_text sg -> s = sg ++ 0x30%N :: x :: t -> x <> 0x78%N)).
Proof. exact decimal_iff. Qed.
Print Assumptions C10_decimal_iff.

Example C10_example : opt_sign_text (str "-") /\ digits_of 16 (str "f_0_").
Proof.
  split; [constructor; right; reflexivity|].
  exists 0x66%N, (str "_0_"). split; [reflexivity|].
  split; [exists 15%N; split; [lia|left; reflexivity]|].
  constructor; [left; reflexivity|]. constructor; [right; exists 0%N; split; [lia|left; reflexivity]|].
  constructor; [left; reflexivity|constructor].
Qed.
