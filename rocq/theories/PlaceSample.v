(** Places in a document, for the examples beside the theorems. *)

From Coq Require Import NArith PeanoNat List Bool String Lia.
From Verif Require Import Chars Ast Errors Chumsky Kdl KdlText KdlChars Good LexIdent PropMap
  Items Nodes Meaning Layout LayoutMeans PrintMeans Sample PlaceSpec.
Import ListNotations.
Local Open Scope list_scope.
Local Existing Instance unit_env.

Lemma letter_ident c rest : is_id_sans_sign_dig c = true -> stops rest -> ident_at [c] rest [c].
Proof.
  intros H S. apply ID_bare.
  - apply letter_bare; [exact H|]. cbn. intros [X|[X|[X|[]]]]; discriminate.
  - destruct rest as [|e r]; [exact I|]. destruct (S e r eq_refl) as [A B]. split.
    + intros [d [D Q]]. injection Q as ->. exfalso.
      apply id_sans_sign_dig_spec in H. destruct H as [_ H]. contradiction.
    + auto.
Qed.

Lemma space_stops r : stops (0x20%N :: r).
Proof. apply stops_cons, nonident_ws; [cbn; tauto|discriminate]. Qed.
Lemma semicolon_stops r : stops (0x3B%N :: r).
Proof. apply stops_cons. split; [|discriminate]. intros [_ [X _]]. apply X. cbn. tauto. Qed.

Lemma one_nspace x : many (nspace_at true) [0x20%N] x.
Proof.
  apply (Many_cons _ [0x20%N] []); [|constructor]. apply NS_ws, WS_char. cbn. tauto.
Qed.
Lemma one_lspace x : many (lspace_at true) [0x20%N] x.
Proof.
  apply (Many_cons _ [0x20%N] []); [|constructor]. apply LS_ws, WS_char. cbn. tauto.
Qed.

Lemma bare_head c x : is_id_sans_sign_dig c = true -> stops x -> head [c] x.
Proof.
  intros H S. exists [], [c], [], [c], []. split; [reflexivity|]. split; [left; reflexivity|].
  split; [apply letter_ident; assumption|constructor].
Qed.

(** A node before, and a node that is commented out, with a child. *)
Lemma begun_sample x : begun (str "a;/-b { ") x.
Proof.
  apply (Begun_inside (str "a;") (str "/-") (str "b") (str " ") [] (str " ") x).
  - apply (Begun_after [] [] (str "a;") [] _ (Node None (Spanned tt (str "a")) [] [] None)).
    + apply Begun_start. constructor.
    + split; [cbn; intuition discriminate|left; reflexivity].
    + match goal with |- node_at _ _ ?u _ => set (r := u) end.
      change (node_at true ([] ++ plain (str "a") ++ [] ++ [] ++ [] ++ plain (str ";")) r
        (Node None (Spanned (span_of (plain (str "a"))) (str "a")) (arguments_of []) [] None)).
      apply (Node_ true [] (plain (str "a")) [] [] [] (plain (str ";")) r None (str "a") [] [] None).
      * constructor.
      * apply (letter_ident 0x61%N); [reflexivity|apply semicolon_stops].
      * constructor.
      * constructor.
      * constructor.
      * apply Term_semicolon.
      * apply property_map_nil.
    + constructor.
  - split; [cbn; intuition discriminate|]. right. exists []. split; [reflexivity|constructor].
  - apply (bare_head 0x62%N); [reflexivity|apply space_stops].
  - apply one_nspace.
  - split; [cbn; intuition discriminate|left; reflexivity].
  - apply one_lspace.
Qed.

Lemma t_type : type_text (str "(t)") (Custom (str "t")).
Proof.
  apply (Type_name (str "t") (str "t")).
  - apply (letter_ident 0x74%N); [reflexivity|]. apply stops_cons. split; [|discriminate].
    intros [_ [X _]]. apply X. cbn. tauto.
  - constructor. vm_compute. intuition discriminate.
Qed.

Lemma name_sample x : name_place (str "a;/-b { /-(t)") x.
Proof.
  exists (str "a;/-b { "), (str "/-"), (str "(t)"). split; [reflexivity|].
  split; [apply begun_sample|]. split.
  - split; [cbn; intuition discriminate|]. right. exists []. split; [reflexivity|constructor].
  - right. exists (Custom (str "t")). exact t_type.
Qed.

Lemma item_sample x : not_ws x -> item_place (str "a;/-b { (t)c 1 /-") x.
Proof.
  intros W. exists (str "a;/-b { "), [], (str "(t)c 1"), (str " "), (str "/-").
  split; [reflexivity|]. split; [apply begun_sample|].
  split; [split; [cbn; intuition discriminate|left; reflexivity]|].
  split; [|split; [discriminate|split; [apply one_nspace|]]].
  - exists (str "(t)"), (str "c"), (str " 1"), (str "c"),
      [Argument (Value None (Spanned tt (LInt Dec (str "1"))))].
    split; [reflexivity|]. split; [right; exists (Custom (str "t")); exact t_type|].
    split; [apply (letter_ident 0x63%N); [reflexivity|apply space_stops]|].
    apply (Items_cons true (plain (str " ")) (plain (str "1")) []); [discriminate| | | |constructor].
    + apply one_nspace.
    + cbn. intuition discriminate.
    + constructor. constructor.
      change (value_at (plain (str "1"))
        (Value None (Spanned (span_of (plain (str "1"))) (LInt Dec (str "1"))))).
      apply Val_plain, one_wf.
  - split; [exact W|]. right. exists []. split; [reflexivity|constructor].
Qed.

Lemma value_sample x : value_place (str "a;/-b { (t)c 1 /-k=(t)") x.
Proof.
  right. exists (str "a;/-b { (t)c 1 /-"), (str "k"), (str "k"), (str "(t)").
  split; [reflexivity|]. split; [apply item_sample; cbn; intuition discriminate|].
  split; [apply (letter_key 0x6B%N); reflexivity|]. right. exists (Custom (str "t")). exact t_type.
Qed.
