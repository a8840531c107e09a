(** C16: misplaced identifiers, numbers and keywords are rejected. *)

From Coq Require Import NArith List String Lia.
From Verif Require Import Chars Ast Errors Chumsky Spans Grammar Kdl KdlText Layout Observe
  LayoutMeans ItemProps Sample PlaceSpec PlaceProps PlaceSample.
Import ListNotations.
Local Open Scope list_scope.

(** A bare identifier as an argument, anywhere in a document, with anything after
    it that ends it, other than an equals sign (a property) or a quote that makes
    it a raw string. *)
Theorem C16_argument : forall p s rest, item_place p (s ++ rest) -> bare_text s ->
  ~ In 0xFEFF%N s -> stops rest -> hd_error rest <> Some 0x3D%N ->
  (hd_error rest = Some 0x22%N -> forall k, s <> 0x72%N :: repeat 0x23%N k) ->
  rejected (p ++ s ++ rest).
Proof. exact misplaced_argument. Qed.
Print Assumptions C16_argument.

(** A bare identifier as the value of a property, or after a type name. *)
Theorem C16_value : forall p s rest, value_place p (s ++ rest) -> bare_text s ->
  ~ In 0xFEFF%N s -> stops rest ->
  (hd_error rest = Some 0x22%N -> forall k, s <> 0x72%N :: repeat 0x23%N k) ->
  rejected (p ++ s ++ rest).
Proof. exact misplaced_value. Qed.
Print Assumptions C16_value.

(** A number or a keyword as a property name. *)
Theorem C16_key : forall p s rest, item_place p (s ++ 0x3D%N :: rest) ->
  (exists l, number_text s l) \/ In s keywords -> rejected (p ++ s ++ 0x3D%N :: rest).
Proof. exact misplaced_key. Qed.
Print Assumptions C16_key.

(** A number or a keyword as a node name. *)
Theorem C16_name : forall p s rest, name_place p (s ++ rest) ->
  (exists l, number_text s l) \/ In s keywords /\ stops rest -> rejected (p ++ s ++ rest).
Proof. exact misplaced_name. Qed.
Print Assumptions C16_name.

(** Places of each kind: after a node, in the children of a node that is commented
    out, and in an element that is commented out itself. *)
Example C16_places : forall x,
  (not_ws x -> item_place (str "a;/-b { (t)c 1 /-") x)
  /\ value_place (str "a;/-b { (t)c 1 /-k=(t)") x
  /\ name_place (str "a;/-b { /-(t)") x.
Proof.
  intros x. split; [exact (item_sample x)|]. split; [apply value_sample|apply name_sample].
Qed.

Example C16_example : bare_text (str "k") /\ stops (str " { }")
  /\ In (str "null") keywords /\ exists l, number_text (str "1") l.
Proof.
  split; [apply letter_bare; [reflexivity|cbn; intuition discriminate]|].
  split; [apply stops_cons, nonident_ws; [cbn; tauto|discriminate]|].
  split; [cbn; tauto|]. pose proof (proj2 one_wf) as H. inversion H as [s t T| | | |s l N].
  exists (LInt Dec (str "1")). exact N.
Qed.
