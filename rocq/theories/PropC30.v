(** C30: bytes decoding is faithful. *)

From Coq Require Import NArith ZArith List Bool String Lia.
From Verif Require Import Chars Ast Errors Chumsky Spans Grammar Decode Scalar Containers DecodeSpec BytesProps.
Import ListNotations.
Local Open Scope list_scope.

(** [unicode]: the characters are what a Rust [char] can hold. *)
Theorem C30_bytes : forall Sp (v : value Sp) c b,
  (forall s, s_value (v_literal v) = LString s -> Forall unicode s) ->
  bytes v c = (c, b) <->
  exists s, s_value (v_literal v) = LString s
    /\ ((v_type_name v = None /\ utf8_text s b)
        \/ (exists sp, v_type_name v = Some (Spanned sp (Builtin Base64))
              /\ s = b64_encode b /\ Forall byte b)).
Proof. exact @bytes_iff. Qed.
Print Assumptions C30_bytes.

Theorem C30_otherwise : forall Sp (v : value Sp) c,
  (exists b, bytes v c = (c, b)) \/ (exists e, bytes v c = (emit_error e c, [])).
Proof. exact @bytes_total. Qed.
Print Assumptions C30_otherwise.

Example C30_example :
  bytes (Value (Some (Spanned tt (Builtin Base64))) (Spanned tt (LString (str "SGVsbG8=")))) context_new
  = (context_new, str "Hello")
  /\ b64_encode (str "Hello") = str "SGVsbG8="
  /\ bytes (Value None (Spanned tt (LString [0x20AC; 0x1F600]%N))) context_new
     = (context_new, [0xE2; 0x82; 0xAC; 0xF0; 0x9F; 0x98; 0x80]%N).
Proof. repeat split. Qed.
