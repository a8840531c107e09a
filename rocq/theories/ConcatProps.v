(** Documents put together: what [Concat.v] says about the parser. *)

From Coq Require Import NArith PeanoNat List Bool String Lia.
From Verif Require Import Chars Ast Errors Chumsky Spans Grammar Kdl KdlText KdlChars Good Observe Layout LayoutMeans LayoutProps
  Meaning PrintMeans ConcatSpec Concat.
Import ListNotations.
Local Open Scope list_scope.
Local Existing Instance unit_env.

Lemma plain_parts a b : plain (a ++ b) = plain a ++ plain b.
Proof. apply map_app. Qed.

Theorem means_join strict t1 t2 D1 D2 : means strict t1 D1 -> means strict t2 D2 ->
  means strict (t1 ++ [0x0A; 0x0A]%N ++ t2) (D1 ++ D2).
Proof.
  intros H1 H2. unfold means, document_at. rewrite !plain_parts.
  exact (nodes_join strict (plain t1) D1 (plain t2) [] D2 H1 H2).
Qed.

Theorem joined_reads t1 t2 D1 D2 : means true t1 D1 -> means true t2 D2 ->
  reads (t1 ++ [0x0A; 0x0A]%N ++ t2) (D1 ++ D2).
Proof. intros H1 H2. apply parse_span_complete, means_join; assumption. Qed.

Lemma chars_plain t : chars (plain t) = t.
Proof. unfold chars, plain. rewrite map_map. apply map_id. Qed.

Lemma span_is (s : Chumsky.toks unit) : span_of s = tt.
Proof. destruct (span_of s). reflexivity. Qed.

Lemma braces_close strict t D r : means strict t D ->
  braces_at strict (plain (str "{" ++ t ++ [0x0A; 0x0A]%N ++ str "}")) r D.
Proof.
  intros H. rewrite !plain_parts.
  assert (nodes_at strict [] ((0x7D%N, tt) :: r) []) as Z.
  { apply (Nodes strict [] []); [constructor|constructor]. }
  assert (X := nodes_join strict (plain t) D [] ((0x7D%N, tt) :: r) [] H Z). rewrite !app_nil_r in X.
  replace (plain (str "{") ++ plain t ++ plain [0x0A; 0x0A]%N ++ plain (str "}"))
    with (((0x7B%N, tt) : tok unit) :: (plain t ++ lfs 2) ++ [((0x7D%N, tt) : tok unit)])
    by (rewrite <- app_assoc; reflexivity).
  constructor; [reflexivity|reflexivity|exact X].
Qed.

Theorem means_within strict name t D : means strict t D ->
  means strict (print_string name ++ str " {" ++ t ++ [0x0A; 0x0A]%N ++ str "}") (within name D).
Proof.
  intros H. unfold means, document_at.
  replace (print_string name ++ str " {" ++ t ++ [0x0A; 0x0A]%N ++ str "}")
    with (print_string name ++ [0x20%N] ++ str "{" ++ t ++ [0x0A; 0x0A]%N ++ str "}") by reflexivity.
  rewrite plain_parts. rewrite (plain_parts [0x20%N]).
  assert (B := braces_close strict t D [] H). revert B. generalize (plain (str "{" ++ t ++ [0x0A; 0x0A]%N ++ str "}")).
  intros b B.
  assert (node_at strict (plain (print_string name) ++ plain [0x20%N] ++ b) []
    (Node None (Spanned tt name) [] [] (Some (Spanned tt D)))) as N.
  { assert (X := Node_ strict [] (plain (print_string name)) [] (plain [0x20%N] ++ b) [] [] []
      None name [] [] (Some (Spanned (span_of b) D))). cbn [app] in X. rewrite !app_nil_r in X.
    rewrite !span_is in X. apply X.
    - constructor.
    - rewrite chars_plain. apply ID_escaped, print_string_text.
    - constructor.
    - rewrite <- (span_is b). apply Ch_some; [|exact B]. rewrite app_nil_r. unfold nspaces. rewrite chars_plain.
      rewrite <- (app_nil_r [0x20%N]). constructor; [|constructor]. apply NS_ws, WS_char. cbn. tauto.
    - constructor.
    - apply Term_eof.
    - split; [constructor|]. intros kv. split; [intros []|]. intros (b1 & v1 & a1 & b2 & k2 & a2 & X1 & _).
      destruct b1; discriminate X1. }
  assert (node_list_at strict (plain (print_string name) ++ plain [0x20%N] ++ b) [] (within name D)) as L.
  { assert (X := NL_node strict (plain (print_string name) ++ plain [0x20%N] ++ b) [] [] []
      (Node None (Spanned tt name) [] [] (Some (Spanned tt D))) []).
    cbn [app] in X. rewrite !app_nil_r in X. unfold within.
    rewrite span_is in X. apply X; [|exact N|constructor|constructor].
    cbn. intros Y. repeat (destruct Y as [Y|Y]; [discriminate Y|]). exact Y. }
  apply (Nodes strict [] (plain (print_string name) ++ plain [0x20%N] ++ b)); [constructor|exact L].
Qed.

Theorem within_reads name t D : means true t D ->
  reads (print_string name ++ str " {" ++ t ++ [0x0A; 0x0A]%N ++ str "}") (within name D).
Proof. intros H. apply parse_span_complete, means_within, H. Qed.

(** ** What fails *)

Definition quoted (s : string) : text := [0x22%N] ++ str s ++ [0x22%N].

(** A backslash before the last newline takes the next text as part of the node. *)
Definition open_line : text := str "a \" ++ [0x0A%N].

Lemma open_line_joined : reads open_line [named (str "a")] /\ reads (quoted "b") [named (str "b")]
  /\ reads (open_line ++ quoted "b")
     [Spanned tt (Node None (Spanned tt (str "a")) [Value None (Spanned tt (LString (str "b")))] [] None)].
Proof. repeat split; eexists; (split; [vm_compute; reflexivity|reflexivity]). Qed.

Definition open_comment : text := str "a \//".

Lemma open_comment_joined : reads open_comment [named (str "a")] /\ reads (quoted "b") [named (str "b")]
  /\ reads (open_comment ++ [0x0A%N] ++ quoted "b")
     [Spanned tt (Node None (Spanned tt (str "a")) [Value None (Spanned tt (LString (str "b")))] [] None)].
Proof. repeat split; eexists; (split; [vm_compute; reflexivity|reflexivity]). Qed.

(** A comment that is closed only because nothing further closes it. *)
Definition half_comment : text := str "a /*/*/".
Definition two_ends : text := str "b " ++ quoted "*/*/".

Lemma half_comment_joined : accepted half_comment /\ accepted two_ends
  /\ rejected (half_comment ++ [0x0A; 0x0A]%N ++ two_ends).
Proof.
  split; [eexists; vm_compute; reflexivity|]. split; [eexists; vm_compute; reflexivity|].
  eexists. split; [|vm_compute; reflexivity]. discriminate.
Qed.

(** ** Any number of texts *)

Lemma empty_means strict : means strict [] [].
Proof. apply (Nodes strict [] []); constructor. Qed.

Lemma together_means strict ts Ds : Forall2 (means strict) ts Ds -> means strict (together ts) (List.concat Ds).
Proof. induction 1; [apply empty_means|]. cbn [together List.concat]. apply means_join; assumption. Qed.

Theorem together_reads ts Ds : Forall2 (means true) ts Ds -> reads (together ts) (List.concat Ds).
Proof. intros H. apply parse_span_complete, together_means, H. Qed.

(** ** Statements about what fails *)

Theorem newline_not_enough : exists t1 t2 D1 D2 D,
  reads t1 D1 /\ reads t2 D2 /\ reads (t1 ++ [0x0A%N] ++ t2) D /\ D <> D1 ++ D2.
Proof.
  destruct open_comment_joined as (A & B & C). exists open_comment, (quoted "b").
  do 3 eexists. split; [exact A|]. split; [exact B|]. split; [exact C|]. vm_compute. discriminate.
Qed.

Theorem end_of_line_not_enough : exists t1 t2 D1 D2 D,
  reads (t1 ++ [0x0A%N]) D1 /\ reads t2 D2 /\ reads ((t1 ++ [0x0A%N]) ++ t2) D /\ D <> D1 ++ D2
  /\ t1 = str "a \".
Proof.
  destruct open_line_joined as (A & B & C). exists (str "a \"), (quoted "b").
  do 3 eexists. split; [exact A|]. split; [exact B|]. split; [exact C|].
  split; [vm_compute; discriminate|reflexivity].
Qed.

Theorem accepted_not_enough : exists t1 t2,
  accepted t1 /\ accepted t2 /\ rejected (t1 ++ [0x0A; 0x0A]%N ++ t2).
Proof. exists half_comment, two_ends. exact half_comment_joined. Qed.
