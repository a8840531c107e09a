(** A written-out document, for the examples beside the theorems. *)

From Coq Require Import NArith PeanoNat List Bool String Lia Permutation.
From Verif Require Import Chars Ast Errors Chumsky Kdl KdlText KdlChars Layout Comment
  LexIdent LayoutMeans PrintMeans Observe CommentProps.
Import ListNotations.
Local Open Scope list_scope.

Definition sp : gap := [GWs (WChar 0x20%N)].
Definition one : dvalue := DValue None (str "1") (LInt Dec (str "1")).
Definition txt : dvalue :=
  DValue (Some (str "(t)", Custom (str "t"))) (str """x\n""") (LString [0x78; 0x0A]%N).

(** Comments (nested), a line continuation, skipped elements of every kind, a
    child, properties, type names. *)
Definition sample : lgap * dlist :=
  ([LWs (WBlock (str "/* c */")); LNewline [0x85%N]],
   DCons None
     (DNode (Some (str "(t)", Custom (str "t"))) (str "a") (str "a")
        [(sp, DArg one); (sp, DSkip [] (DArg txt));
         ([GWs (WChar 0x09%N); GWs (WBlock (str "/*/**/*/"))], DProp (str "k") (str "k") txt);
         (sp, DProp (str "j") (str "j") one)]
        (DSome [GCont [] (Some (str "x")) [0x0A%N]] []
           (DCons (Some []) (DNode None (str "b") (str "b") [] DNone [] (TNewline [0x0D; 0x0A]%N)) []
              (DCons None (DNode None (str "c") (str "c") [] (DSkipped sp [] [] DNil) [] TSemicolon)
                 [] DNil)))
        [] TSemicolon)
     [LNewline [0x0A%N]] DNil).

(** The same with another layout. *)
Definition sample2 : lgap * dlist :=
  ([],
   DCons None
     (DNode (Some (str "(t)", Custom (str "t"))) (str "a") (str "a")
        [(sp, DArg one); (sp ++ sp, DSkip sp (DArg txt));
         (sp, DProp (str "k") (str "k") txt);
         (sp, DProp (str "j") (str "j") one)]
        (DSome [] [LNewline [0x0A%N]; LWs (WChar 0x09%N)]
           (DCons (Some sp) (DNode None (str "b") (str "b") [] DNone [] TSemicolon)
              [LComment (str "z") [0x0A%N]]
              (DCons None (DNode None (str "c") (str "c") [] (DSkipped [] [] [] DNil) [] TSemicolon)
                 [] DNil)))
        sp TEof)
     [] DNil).

(** The same with the properties in another order. *)
Definition sample3 : lgap * dlist :=
  ([LWs (WBlock (str "/* c */")); LNewline [0x85%N]],
   DCons None
     (DNode (Some (str "(t)", Custom (str "t"))) (str "a") (str "a")
        [(sp, DProp (str "j") (str "j") one); (sp, DArg one);
         (sp, DProp (str "k") (str "k") txt)]
        (DSome [GCont [] (Some (str "x")) [0x0A%N]] []
           (DCons (Some []) (DNode None (str "b") (str "b") [] DNone [] (TNewline [0x0D; 0x0A]%N)) []
              (DCons None (DNode None (str "c") (str "c") [] (DSkipped sp [] [] DNil) [] TSemicolon)
                 [] DNil)))
        [] TSemicolon)
     [LNewline [0x0A%N]] DNil).

Lemma letter_bare c : is_id_sans_sign_dig c = true -> ~ In [c] keywords -> bare_text [c].
Proof.
  intros H K. apply id_sans_sign_dig_spec in H. destruct H as [A B].
  apply Bare_plain; [exact A|exact B|constructor|exact K].
Qed.

Lemma letter_name c : is_id_sans_sign_dig c = true -> c <> 0xFEFF%N -> wf_name [c] [c].
Proof.
  intros H F. apply WN_bare; [|intros Q; injection Q as ->; congruence].
  apply letter_bare; [exact H|]. cbn. intros [X|[X|[X|[]]]]; discriminate.
Qed.

Lemma letter_key c : is_id_sans_sign_dig c = true -> key_text [c] [c].
Proof.
  intros H. apply Key_bare.
  - apply letter_bare; [exact H|]. cbn. intros [X|[X|[X|[]]]]; discriminate.
  - intros k K [x X]. destruct K as [<-|[<-|[<-|[]]]]; discriminate.
Qed.

Lemma one_wf : wf_dvalue one.
Proof.
  split; [exact I|]. apply Lit_number. apply (Num_int [] (str "1") (str "1")); [constructor| |].
  - constructor; [|constructor]. apply (is_digit_spec 10); [lia|reflexivity].
  - apply Strip_char; [discriminate|constructor].
Qed.

Lemma t_type : type_text (str "(t)") (Custom (str "t")).
Proof.
  apply (Type_name (str "t") (str "t")).
  - apply ID_bare.
    + apply letter_bare; [reflexivity|]. cbn. intros [X|[X|[X|[]]]]; discriminate.
    + split; intros _; [intros H; apply id_sans_dig_spec in H|intros H; apply id_char_spec in H];
        discriminate.
  - apply NT_custom. cbn. intuition discriminate.
Qed.

Lemma txt_wf : wf_dvalue txt.
Proof.
  split; [exact t_type|]. apply Lit_string, ST_escaped. apply (Escaped (str "x\n")).
  apply SB_char; [discriminate|discriminate|].
  apply (SB_escape (str "n") 0x0A%N [] []); [|constructor]. constructor. cbn. tauto.
Qed.

Lemma scan_wf s : scan 1 (skipn 2 s) = Some [] -> firstn 2 s = str "/*" -> wf_welem (WBlock s).
Proof.
  intros H F. apply nested_block. exists (skipn 2 s). split; [|exact H]. rewrite <- F.
  symmetry. apply firstn_skipn.
Qed.

Ltac gap_wf := split; [repeat (apply Forall_cons || apply Forall_nil)
  |intros X; discriminate X || (cbn in X; discriminate X)].

Lemma sp_wf : wf_gap sp.
Proof. gap_wf. cbn. tauto. Qed.

Lemma sp2_wf : wf_gap (sp ++ sp).
Proof. gap_wf; cbn; tauto. Qed.

Lemma nil_wf : wf_gap [].
Proof. gap_wf. Qed.

Lemma b_wf last : wf_node last
  (DNode None (str "b") (str "b") [] DNone [] (TNewline [0x0D; 0x0A]%N)).
Proof.
  apply WF_node; [exact I|apply letter_name; [reflexivity|discriminate]|constructor|constructor
    |apply nil_wf|left; reflexivity|discriminate].
Qed.

Lemma b2_wf last : wf_node last (DNode None (str "b") (str "b") [] DNone [] TSemicolon).
Proof.
  apply WF_node; [exact I|apply letter_name; [reflexivity|discriminate]|constructor|constructor
    |apply nil_wf|exact I|discriminate].
Qed.

Lemma c_wf last g : wf_gap g -> wf_node last
  (DNode None (str "c") (str "c") [] (DSkipped g [] [] DNil) [] TSemicolon).
Proof.
  intros G.
  apply WF_node; [exact I|apply letter_name; [reflexivity|discriminate]|constructor|
    |apply nil_wf|exact I|discriminate].
  apply WF_skipped; [exact G|apply nil_wf|constructor|constructor].
Qed.

Lemma lf_wf : newline_text [0x0A%N].
Proof. right. exists 0x0A%N. cbn. tauto. Qed.

Lemma nel_wf : newline_text [0x85%N].
Proof. right. exists 0x85%N. cbn. tauto. Qed.

Lemma k_wf : wf_item (DProp (str "k") (str "k") txt).
Proof. split; [apply letter_key; reflexivity|]. split; [discriminate|apply txt_wf]. Qed.

Lemma j_wf : wf_item (DProp (str "j") (str "j") one).
Proof. split; [apply letter_key; reflexivity|]. split; [discriminate|apply one_wf]. Qed.

Lemma cont_wf : wf_gap [GCont [] (Some (str "x")) [0x0A%N]].
Proof.
  gap_wf. split; [constructor|]. split; [apply lf_wf|]. split; [discriminate|].
  constructor; [|constructor]. cbn. intuition discriminate.
Qed.

Lemma inner_wf : wf_children (DSome [GCont [] (Some (str "x")) [0x0A%N]] []
  (DCons (Some []) (DNode None (str "b") (str "b") [] DNone [] (TNewline [0x0D; 0x0A]%N)) []
     (DCons None (DNode None (str "c") (str "c") [] (DSkipped sp [] [] DNil) [] TSemicolon)
        [] DNil))).
Proof.
  apply WF_some; [apply cont_wf|constructor|].
  apply WF_cons; [intros g [= <-]; apply nil_wf|apply b_wf|constructor|].
  apply WF_cons; [discriminate|apply c_wf, sp_wf|constructor|constructor].
Qed.

Lemma top_wf : wf_lgap [LWs (WBlock (str "/* c */")); LNewline [0x85%N]].
Proof.
  constructor; [apply scan_wf; reflexivity|]. constructor; [apply nel_wf|constructor].
Qed.

Lemma sample_wf : wf sample.
Proof.
  split; [exact top_wf|].
  apply WF_cons; [discriminate| |constructor; [apply lf_wf|constructor]|constructor].
  apply WF_node; [exact t_type|apply letter_name; [reflexivity|discriminate]| |exact inner_wf
    |apply nil_wf|exact I|discriminate].
  apply Forall_cons; [split; [apply sp_wf|split; [discriminate|apply one_wf]]|].
  apply Forall_cons; [split; [apply sp_wf|split; [discriminate|split; [apply nil_wf|apply txt_wf]]]|].
  apply Forall_cons; [split; [|split; [discriminate|exact k_wf]]|].
  - gap_wf; [cbn; tauto|apply scan_wf; reflexivity].
  - apply Forall_cons; [split; [apply sp_wf|split; [discriminate|apply j_wf]]|]. constructor.
Qed.

Lemma sample2_wf : wf sample2.
Proof.
  split; [constructor|].
  apply WF_cons; [discriminate| |constructor|constructor].
  apply WF_node; [exact t_type|apply letter_name; [reflexivity|discriminate]| |
    |apply sp_wf|exact I|reflexivity].
  - apply Forall_cons; [split; [apply sp_wf|split; [discriminate|apply one_wf]]|].
    apply Forall_cons; [split; [apply sp2_wf|split; [discriminate|split; [apply sp_wf|apply txt_wf]]]|].
    apply Forall_cons; [split; [apply sp_wf|split; [discriminate|exact k_wf]]|].
    apply Forall_cons; [split; [apply sp_wf|split; [discriminate|apply j_wf]]|]. constructor.
  - apply WF_some; [apply nil_wf|constructor; [apply lf_wf|constructor; [cbn; tauto|constructor]]|].
    apply WF_cons; [intros g [= <-]; apply sp_wf|apply b2_wf| |].
    + constructor; [|constructor]. split; [|apply lf_wf]. constructor; [|constructor].
      cbn. intuition discriminate.
    + apply WF_cons; [discriminate|apply c_wf, nil_wf|constructor|constructor].
Qed.

Lemma sample3_wf : wf sample3.
Proof.
  split; [exact top_wf|].
  apply WF_cons; [discriminate| |constructor; [apply lf_wf|constructor]|constructor].
  apply WF_node; [exact t_type|apply letter_name; [reflexivity|discriminate]| |exact inner_wf
    |apply nil_wf|exact I|discriminate].
  apply Forall_cons; [split; [apply sp_wf|split; [discriminate|apply j_wf]]|].
  apply Forall_cons; [split; [apply sp_wf|split; [discriminate|apply one_wf]]|].
  apply Forall_cons; [split; [apply sp_wf|split; [discriminate|apply k_wf]]|]. constructor.
Qed.

Lemma sample_relaid : relaid sample sample2.
Proof.
  apply RL_cons; [|constructor]. apply RN.
  - repeat constructor.
  - constructor. apply RL_skip; [repeat constructor|]. apply RL_cons; [repeat constructor|constructor].
Qed.

Lemma sample_reordered : reordered sample sample3.
Proof.
  split; [reflexivity|]. constructor; [|constructor]. constructor.
  - reflexivity.
  - apply perm_swap.
  - constructor; [cbn; intuition discriminate|]. constructor; [cbn; tauto|constructor].
  - constructor. constructor; [apply ON; try reflexivity; constructor|].
    constructor; [|constructor]. apply ON; try reflexivity; repeat constructor.
Qed.
