(** C11: integer decoding is exact or an error. *)

From Coq Require Import NArith ZArith List Bool String Lia.
From Verif Require Import Chars Ast Errors Chumsky Spans Grammar Decode Scalar Containers DecodeSpec IntProps ScalarProps.
Import ListNotations.
Local Open Scope list_scope.

(** Decoded without an error: exactly an integer literal whose value is in the
    range of the type (with no or the same type name; an unsigned type takes no
    minus sign, see C52). *)
Theorem C11_exact : forall Sp t (v : value Sp) c z,
  decodes (sc_decode (int_impl t) v) c z <->
  exists r s, s_value (v_literal v) = LInt r s /\ integer_value (radix_base r) s z /\ fits t z
    /\ (takes_minus t \/ hd_error s <> Some 0x2D%N) /\ typed_as (int_rust_name t) (v_type_name v).
Proof. exact @int_decodes_iff. Qed.
Print Assumptions C11_exact.

(** Out of range: one error, at the literal. *)
Theorem C11_range : forall Sp t r s z ty sp (c : context Sp),
  integer_value (radix_base r) s z -> ~ fits t z -> typed_as (int_rust_name t) ty ->
  exists e, sc_decode (int_impl t) (Value ty (Spanned sp (LInt r s))) c
            = (Context (c_errors c ++ [DConversion sp e]) (c_ext c), DOk 0%Z).
Proof. exact @int_out_of_range. Qed.
Print Assumptions C11_range.

(** Never neither. *)
Theorem C11_total : forall Sp t (v : value Sp) c,
  (exists z, decodes (sc_decode (int_impl t) v) c z) \/ fails (sc_decode (int_impl t) v) c.
Proof. exact @int_total. Qed.
Print Assumptions C11_total.

Example C11_example :
  decodes (sc_decode (int_impl TI8)
    (Value (Some (Spanned tt (Builtin I8))) (Spanned tt (LInt Hex (str "-80"))))) context_new (-128)%Z
  /\ fails (sc_decode (int_impl TI8) (Value None (Spanned tt (LInt Hex (str "80"))))) context_new
  /\ integer_value 16 (str "80") 128%Z /\ ~ fits TI8 128%Z.
Proof.
  split; [reflexivity|]. split; [exists (DConversion tt (SInt IPosOverflow)), []; reflexivity|].
  split; [|cbv; intros [_ H]; apply H; reflexivity].
  apply (IV_plain 16 (str "80") 128); [discriminate|]. apply fwd_value; [lia|reflexivity].
Qed.
