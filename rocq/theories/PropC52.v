(** C52: zero may carry a minus sign. *)

From Coq Require Import NArith ZArith List Bool String Lia.
From Verif Require Import Chars Ast Errors Chumsky Spans Grammar Decode Scalar Containers DecodeSpec IntProps.
Import ListNotations.
Local Open Scope list_scope.

(** False: the minus sign alone makes an unsigned type reject the literal. *)
Theorem C52_minus_zero_refuted : exists s z, integer_value 10 s z /\ fits TU8 z
  /\ sc_decode (int_impl TU8) (Value None (Spanned tt (LInt Dec s))) context_new
     = (Context [DConversion tt (SInt IInvalidDigit)] [], DOk 0%Z).
Proof. exact minus_zero_refuted. Qed.
Print Assumptions C52_minus_zero_refuted.

(** Full statement: without [takes_minus]. *)
Theorem C52_in_range_partial : forall Sp t r s z ty sp (c : context Sp),
  integer_value (radix_base r) s z -> takes_minus t -> fits t z -> typed_as (int_rust_name t) ty ->
  decodes (sc_decode (int_impl t) (Value ty (Spanned sp (LInt r s)))) c z.
Proof. exact @signed_decodes. Qed.
Print Assumptions C52_in_range_partial.

Example C52_example : integer_value (radix_base Dec) (str "-0") 0%Z /\ takes_minus TI8 /\ fits TI8 0%Z
  /\ typed_as (Sp := unit) (int_rust_name TI8) None.
Proof. split; [exact minus_zero|]. repeat split; try (left; reflexivity); cbv; discriminate. Qed.
