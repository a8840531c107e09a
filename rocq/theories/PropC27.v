(** C27: scalar decoding accepts exactly its kind. *)

From Coq Require Import NArith ZArith List Bool String Lia.
From Verif Require Import Chars Ast Errors Chumsky Spans Grammar Decode Scalar Containers DecodeSpec ScalarProps.
Import ListNotations.
Local Open Scope list_scope.

(** [String], [PathBuf], [Arc<str>] and so on. *)
Theorem C27_string : forall Sp t (v : value Sp) c x,
  decodes (sc_decode (string_impl t) v) c x <->
  s_value (v_literal v) = LString x /\ v_type_name v = None.
Proof. exact @string_decodes_iff. Qed.
Print Assumptions C27_string.

Theorem C27_bool : forall Sp (v : value Sp) c x,
  decodes (sc_decode bool_impl v) c x <->
  s_value (v_literal v) = LBool x /\ v_type_name v = None.
Proof. exact @bool_decodes_iff. Qed.
Print Assumptions C27_bool.

(** [from_str] is the standard library's parser of floats. *)
Theorem C27_float : forall Sp F ft (from_str : text -> option F) zero (v : value Sp) c x,
  decodes (sc_decode (float_impl ft from_str zero) v) c x <->
  exists s, s_value (v_literal v) = LDecimal s /\ from_str s = Some x
    /\ typed_as (float_rust_name ft) (v_type_name v).
Proof. exact @float_decodes_iff. Qed.
Print Assumptions C27_float.

Theorem C27_int : forall Sp t (v : value Sp) c z,
  decodes (sc_decode (int_impl t) v) c z <->
  exists r s, s_value (v_literal v) = LInt r s /\ integer_value (radix_base r) s z /\ fits t z
    /\ (takes_minus t \/ hd_error s <> Some 0x2D%N) /\ typed_as (int_rust_name t) (v_type_name v).
Proof. exact @int_decodes_iff. Qed.
Print Assumptions C27_int.

(** In all other cases an error is added; no type decodes to neither. *)
Theorem C27_otherwise : forall Sp (v : value Sp) c,
  (forall t, (exists x, decodes (sc_decode (string_impl t) v) c x) \/ fails (sc_decode (string_impl t) v) c)
  /\ ((exists x, decodes (sc_decode bool_impl v) c x) \/ fails (sc_decode bool_impl v) c)
  /\ (forall F ft (from_str : text -> option F) zero,
       (exists x, decodes (sc_decode (float_impl ft from_str zero) v) c x)
       \/ fails (sc_decode (float_impl ft from_str zero) v) c)
  /\ (forall t, (exists z, decodes (sc_decode (int_impl t) v) c z) \/ fails (sc_decode (int_impl t) v) c).
Proof. exact @scalars_total. Qed.
Print Assumptions C27_otherwise.

Example C27_example :
  decodes (sc_decode (string_impl TString) (Value None (Spanned tt (LString (str "x"))))) context_new (str "x")
  /\ fails (sc_decode bool_impl (Value None (Spanned tt (LString (str "true"))))) context_new
  /\ fails (sc_decode bool_impl (Value (Some (Spanned tt (Custom (str "t")))) (Spanned tt (LBool true)))) context_new.
Proof.
  split; [reflexivity|]. split; [exists (DScalarKind tt KBool KString), []; reflexivity|].
  eexists _, []. reflexivity.
Qed.
