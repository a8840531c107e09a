(** A struct with unwrapped children of every kind, and a node for it. *)

From Coq Require Import NArith ZArith List Bool String.
From Verif Require Import Chars Ast Errors Chumsky Spans Grammar Conformance Kdl.
From Verif Require Import Decode Scalar Containers DecodeSpec DeriveDef Derive DeriveSpec FieldSpec
  StructSpec HonestProps LexIdent LibraryProps DeriveConformance HandSpec UnwrapSpec DeriveSample.
Import ListNotations.
Local Open Scope string_scope.
Local Open Scope list_scope.

Definition derive_or (i : src_item span leaf) : derived span leaf :=
  match decode_derive kebab i with
  | Some d => d
  | None => Derived (fun _ => d_panic) None None None
  end.

Lemma derived_by i : (if decode_derive kebab i then true else false) = true ->
  decode_derive kebab i = Some (derive_or i).
Proof. unfold derive_or. now destruct (decode_derive kebab i). Qed.

Definition within_mode (m : field_mode) : attr leaf := AUnwrap (inside m None None None).

Definition wrap_fields : list (src_field span leaf) :=
  [ F_ "one" (T_ "String") ty_string [child_; within_mode FmArgument];
    F_ "many" (T_ "Vec") ty_string [child_; within_mode FmArguments];
    F_ "prop" (T_ "String") ty_string [child_; within_mode (FmProperty None)];
    F_ "props" (T_ "Map") ty_string [child_; within_mode FmProperties];
    F_ "kids" (T_ "Vec") ty_arg [child_; within_mode (FmChildren None)];
    F_ "points" (T_ "Vec") ty_arg [child_; within_mode (FmChildren (Some (str "point")))];
    F_ "deep" (T_ "String") ty_string
      [child_; AUnwrap (inside FmChild None (Some (inside FmArgument None None None)) None)] ].

Definition wrap_item : src_item span leaf := struct_item true (str "Wrap") [] wrap_fields.
Definition wrap : derived span leaf := derive_or wrap_item.

Lemma wrap_derived : decode_derive kebab wrap_item = Some wrap.
Proof. apply derived_by. vm_compute. reflexivity. Qed.
Lemma wrap_proper : proper true wrap_fields.
Proof. apply named_proper. vm_compute. reflexivity. Qed.
Lemma wrap_newtype : ~ newtype true wrap_fields.
Proof. intros [H _]. discriminate. Qed.
Lemma wrap_plain : plain_fields kebab wrap_fields.
Proof. apply plain_checked. vm_compute. reflexivity. Qed.
Lemma wrap_within R : onward R -> Forall (fun f => within R (sf_impl f)) wrap_fields.
Proof.
  intros O. pose proof (ty_string_within R O). pose proof (ty_arg_within R O).
  unfold wrap_fields, F_. repeat (constructor; [cbn [sf_impl]; auto|]). constructor.
Qed.

Definition wrap_node : snode span :=
  first_node (q "n { one 'x'; many '1' '2'; prop prop='y'; props k='1' l='2'; kids { u 'a'; v 'b'; }; points { point 'c'; }; deep { deep 'z'; }; }").

Definition wrap_value : V := value_from (dr_node wrap wrap_node context_new).

Lemma wrap_decoded : dr_node wrap wrap_node context_new = (context_new, DOk wrap_value).
Proof. vm_compute. reflexivity. Qed.

Lemma wrap_fine : fine (dr_node wrap wrap_node) wrap_value.
Proof. exists context_new, context_new. split; [exact wrap_decoded|reflexivity]. Qed.

Definition arg_value (t : text) : V := VStruct (str "Arg1") [(Named (str "name"), v_text t)].

Lemma wrap_holds : wrap_value = VStruct (str "Wrap")
  [ (Named (str "one"), s_ "x");
    (Named (str "many"), VList [s_ "1"; s_ "2"]);
    (Named (str "prop"), s_ "y");
    (Named (str "props"), VPairs [(s_ "k", s_ "1"); (s_ "l", s_ "2")]);
    (Named (str "kids"), VList [arg_value (str "a"); arg_value (str "b")]);
    (Named (str "points"), VList [arg_value (str "c")]);
    (Named (str "deep"), s_ "z") ].
Proof. vm_compute. reflexivity. Qed.
