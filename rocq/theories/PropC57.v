(** C57: [decode(str)] and [decode(bytes)].  [decode_value] is the code that the derive
    generates for the value of an argument or property field, or of an unwrapped one;
    [from_string] and [from_bytes] (PartialSpec.v) say what it should give; the boolean
    says that the type of the field is an [Option].  [fine]: there is a value and no
    error. *)

From Coq Require Import NArith ZArith List Bool String Lia.
From Verif Require Import Chars Ast Errors Chumsky Spans Grammar Conformance Kdl Decode Scalar Containers
  DecodeSpec BytesProps DeriveDef Derive DeriveSpec FieldSpec StructSpec HandSpec PartialSpec PartialProps
  DeriveConformance PartialSample.
Import ListNotations.
Local Open Scope string_scope.
Local Open Scope list_scope.

Theorem C57_str : forall Sp L (i : tyimpl Sp L) v optional x,
  fine (decode_value DmStr optional i v) x <-> from_string i v optional x.
Proof. exact @decode_str_iff. Qed.
Print Assumptions C57_str.

Theorem C57_bytes : forall Sp L (i : tyimpl Sp L) v optional x,
  (forall s, s_value (v_literal v) = LString s -> Forall unicode s) ->
  fine (decode_value DmBytes optional i v) x <-> from_bytes i v optional x.
Proof. exact @decode_bytes_iff. Qed.
Print Assumptions C57_bytes.

Example C57_str_ex :
  fine (decode_value DmStr false ty_addr (val None (LString (str "127.0.0.1:8080")))) (s_ "127.0.0.1:8080")
  /\ fine (decode_value DmStr true ty_addr (val None LNull)) VNone
  /\ ~ (exists x, fine (decode_value DmStr true ty_addr (val None (LBool true))) x)
  /\ ~ (exists x, fine (decode_value DmStr true ty_addr (val (Some (Builtin U8)) LNull)) x).
Proof.
  split; [apply C57_str; eapply FS_required; reflexivity|].
  split; [apply C57_str; eapply FS_null; reflexivity|].
  split; intros [x H]; apply C57_str in H; inversion H; discriminate.
Qed.

Example C57_bytes_ex :
  (exists x, fine (decode_value DmBytes true ty_bytes
                     (val (Some (Builtin Base64)) (LString (str "SGVsbG8=")))) (VSome x))
  /\ fine (decode_value DmBytes true ty_bytes (val None LNull)) VNone
  /\ ~ (exists x, fine (decode_value DmBytes false ty_bytes (val None LNull)) x)
  /\ ~ (exists x, fine (decode_value DmBytes true ty_bytes (val None (LBool true))) x).
Proof.
  split; [eexists; exists context_new, context_new; vm_compute; split; reflexivity|].
  split; [apply C57_bytes; [discriminate|apply FB_null; reflexivity]|].
  split; intros [x H]; (apply C57_bytes in H; [|discriminate]); inversion H as [b y B|b y B|B];
    try discriminate; destruct B as [s [B _]]; discriminate.
Qed.
