(** C06: raw strings are verbatim. *)

From Coq Require Import NArith List String Lia.
From Verif Require Import Chars Ast Errors Chumsky Spans Grammar Kdl KdlText Layout Observe ItemProps.
Import ListNotations.
Local Open Scope list_scope.

(** [raw_close n]: a quote and [n] hashes.  The hypothesis says that its first
    occurrence after the opening quote is the one at the end. *)
Theorem C06_verbatim : forall n t,
  (forall t1 r1, t ++ raw_close n = t1 ++ raw_close n ++ r1 ->
     (List.length t <= List.length t1)%nat) ->
  reads (str "n r" ++ repeat 0x23%N n ++ str """" ++ t ++ raw_close n) (n_arg (LString t)).
Proof. exact raw_reads. Qed.
Print Assumptions C06_verbatim.

(** Whatever follows the opening delimiter, an accepted text has a closing one,
    and the first of them ends the string. *)
Theorem C06_first_close : forall n x D,
  reads (str "n r" ++ repeat 0x23%N n ++ 0x22%N :: x) D ->
  exists t r, x = t ++ raw_close n ++ r
    /\ (forall t1 r1, x = t1 ++ raw_close n ++ r1 -> (List.length t <= List.length t1)%nat)
    /\ (hd_error r = Some 0x3D%N
        \/ exists args ps ch D', D = Spanned tt (Node None (Spanned tt (str "n"))
             (Value None (Spanned tt (LString t)) :: args) ps ch) :: D').
Proof. exact raw_only. Qed.
Print Assumptions C06_first_close.

Theorem C06_unclosed : forall n x, (forall t r, x <> t ++ raw_close n ++ r) ->
  rejected (str "n r" ++ repeat 0x23%N n ++ 0x22%N :: x).
Proof. exact raw_unclosed. Qed.
Print Assumptions C06_unclosed.

(** Contents with a quote, a hash and a backslash. *)
Example C06_example : forall t1 r1, str "a""\#" ++ raw_close 1 = t1 ++ raw_close 1 ++ r1 ->
  (List.length (str "a""\#") <= List.length t1)%nat.
Proof.
  intros t1 r1 Q. do 4 (destruct t1 as [|? t1]; [cbn in Q; discriminate|cbn in Q; injection Q as _ Q]).
  cbn. lia.
Qed.
