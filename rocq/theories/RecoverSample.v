(** A document with every kind of defect that is recovered from. *)

From Coq Require Import NArith ZArith PeanoNat List Bool String Lia ZifyBool.
From Verif Require Import Chars Ast Errors Chumsky Spans Grammar Kdl KdlChars LexLit
  RecoverSpec RecoverProps.
Import ListNotations.
Local Open Scope list_scope.

(** An apostrophe stands for a quote. *)
Definition quoted (s : string) : text := map (fun c => if (c =? 0x27)%N then 0x22%N else c) (str s).

(** A type name, arguments, a property, an element, children and a node that are
    commented out, and children. *)
Definition marred_source : text :=
  quoted "('\ut')a '\u{zz' b k='x\u{1g\n' /-'\u{1234567}' c /-{'\u{d800}';};d{/-e f;}".

Definition marred_errors : list (perror span) :=
  [ EUnexpected None (Span 4 5) (TChar 0x74%N) [TChar 0x7B%N];
    EUnexpected (Some "unexpected character"%string) (Span 13 14) (TChar 0x7A%N)
      [TKind (str "hexadecimal digit")];
    EMessageHelp (Some "unexpected identifier"%string) (Span 17 18)
      "identifiers cannot be used as arguments"
      "consider enclosing in double quotes ""..""";
    EUnexpected None (Span 27 28) (TChar 0x67%N) [TChar 0x7D%N; TKind (str "hexadecimal digit")];
    EUnexpected None (Span 44 45) (TChar 0x37%N) [TChar 0x7D%N];
    EMessageHelp (Some "unexpected identifier"%string) (Span 48 49)
      "identifiers cannot be used as arguments"
      "consider enclosing in double quotes ""..""";
    EMessage (Some "invalid character code"%string) (Span 56 62)
      "converted integer out of range for `char`";
    EMessageHelp (Some "unexpected identifier"%string) (Span 72 73)
      "identifiers cannot be used as arguments"
      "consider enclosing in double quotes ""..""" ].

Definition marred_tokens : toks span := offset_tokens 0 marred_source.

(** Splits of concrete lists. *)
Ltac at1 k :=
  match goal with
  | |- ?R ?s ?r ?e => change (R (firstn k s ++ skipn k s) r e)
  | |- ?R ?s ?e => change (R (firstn k s ++ skipn k s) e)
  end; cbn [firstn skipn].
Ltac at2 k l :=
  match goal with
  | |- ?R ?s ?r ?e => change (R (firstn k s ++ firstn l (skipn k s) ++ skipn l (skipn k s)) r e)
  end; cbn [firstn skipn].
Ltac at3 k l m :=
  match goal with
  | |- ?R ?s ?r ?e => change (R (firstn k s ++ firstn l (skipn k s) ++
      firstn m (skipn l (skipn k s)) ++ skipn m (skipn l (skipn k s))) r e)
  end; cbn [firstn skipn].
(** A node: type name, name, elements, children, space, terminator. *)
Ltac at_node k l m n o :=
  match goal with
  | |- ?R ?s ?r ?e => change (R (firstn k s ++ firstn l (skipn k s) ++
      firstn m (skipn l (skipn k s)) ++ firstn n (skipn m (skipn l (skipn k s))) ++
      firstn o (skipn n (skipn m (skipn l (skipn k s)))) ++
      skipn o (skipn n (skipn m (skipn l (skipn k s))))) r e)
  end; cbn [firstn skipn].

(** An opening and a closing character around the rest. *)
Ltac around :=
  match goal with
  | |- ?R (?a :: ?s) ?r ?e =>
      change (R (a :: removelast s ++ [last s a]) r e); cbn [removelast last]
  | |- ?R (?a :: ?s) ?e =>
      change (R (a :: removelast s ++ [last s a]) e); cbn [removelast last]
  end.

Ltac no_space := apply Many_nil.
Ltac one_space :=
  unfold nspaces; cbn [chars map fst app];
  apply (Many_cons _ [0x20%N] []); [apply NS_ws, WS_char; cbn; auto 20|apply Many_nil].
Ltac not_space := cbn; lia.

(** Two characters, then [k] characters that are skipped. *)
Ltac bad_escape k :=
  match goal with
  | |- ?R (?b :: ?u :: ?s) ?r ?e =>
      change (R (b :: u :: firstn k s ++ skipn k s) r e); cbn [firstn skipn];
      eapply MB_bad; [reflexivity|reflexivity
        |repeat constructor; cbn; unfold resumes_at; lia
        |eexists; eexists; split; [reflexivity|cbn; unfold resumes_at; lia]| |]
  end; cbn [app].
Ltac plain_char := apply MB_char; [discriminate|discriminate|].

Lemma hex_ok c : is_digit 16 c = true -> digit_char 16 c.
Proof. intros H. apply is_digit_spec; [lia|exact H]. Qed.
Lemma hex_no c : is_digit 16 c = false -> ~ digit_char 16 c.
Proof. intros H D. apply is_digit_spec in D; [congruence|lia]. Qed.

Lemma letter_bare c : is_id_sans_dig c = true -> (c =? 0x2B)%N = false -> (c =? 0x2D)%N = false ->
  bare_text [c].
Proof.
  intros H A B. apply Bare_plain; [apply id_sans_dig_spec, H|unfold sign_char; lia|constructor|].
  intros [X|[X|[X|[]]]]; discriminate.
Qed.

Lemma letter_end c d (t : text) : is_id_sans_dig d = false -> is_id_char d = false ->
  bare_end [c] (d :: t).
Proof.
  intros A B. cbn. split; intros _ H; [apply id_sans_dig_spec in H|apply id_char_spec in H]; congruence.
Qed.

Lemma letter_no_keyword c : forall k, In k keywords -> ~ prefix k [c].
Proof. intros k [<-|[<-|[<-|[]]]] [x X]; discriminate. Qed.

Ltac bare_arg :=
  apply MP_bare; [apply letter_bare; reflexivity|apply letter_end; reflexivity
    |apply letter_no_keyword].
Ltac bare_name :=
  eapply MN_sound, ID_bare; [apply letter_bare; reflexivity|apply letter_end; reflexivity].

Lemma marred_derivation : exists es, @marred span (text_env marred_source) marred_tokens es
  /\ es = marred_errors.
Proof.
  eexists. split.
  - unfold marred. let x := eval vm_compute in marred_tokens in change marred_tokens with x.
    apply (M_nodes []); [no_space|].
    at2 66 0. apply MNL_node; [not_space| |no_space|].
    + at_node 7 1 41 16 0. eapply M_node.
      * apply MO_some. around. eapply M_type; [reflexivity|reflexivity|].
        apply MN_marred. around. apply M_string; [reflexivity|reflexivity|].
        bad_escape 1; [apply BC_open; discriminate|constructor].
      * bare_name.
      * at2 1 7. apply MIs_cons; [discriminate|one_space|not_space| |].
        { apply MI_plain, MP_arg, MV_plain, ML_marred. around.
          apply M_string; [reflexivity|reflexivity|].
          bad_escape 3; [apply BC_first; [reflexivity|apply hex_no; reflexivity]|constructor]. }
        at2 1 1. apply MIs_cons; [discriminate|one_space|not_space|apply MI_plain; bare_arg|].
        at2 1 12. apply MIs_cons; [discriminate|one_space|not_space| |].
        { apply MI_plain. at1 1. eapply MP_prop; [|reflexivity|].
          - eapply MK_sound, Key_bare; [apply letter_bare; reflexivity|apply letter_no_keyword].
          - apply MV_plain, ML_marred. around. apply M_string; [reflexivity|reflexivity|].
            plain_char. bad_escape 3.
            + match goal with |- ?R (?o :: ?a :: ?b :: ?t) ?e =>
                change (R (o :: [a] ++ b :: t) e) end.
              apply BC_next; [reflexivity|cbn; lia|repeat constructor; apply hex_ok; reflexivity
                |apply hex_no; reflexivity|discriminate].
            + match goal with |- ?R (?a :: ?b :: []) ?r ?e => change (R (a :: [b] ++ []) r e) end.
              eapply MB_escape; [reflexivity|apply Esc_simple; cbn; auto 10|constructor]. }
        at2 1 15. apply MIs_cons; [discriminate|one_space|not_space| |].
        { at1 2. apply MI_skipped.
          - cbn [app]. apply Slashdash; [reflexivity|reflexivity|no_space|not_space].
          - apply MP_arg, MV_plain, ML_marred. around. apply M_string; [reflexivity|reflexivity|].
            bad_escape 8.
            + match goal with |- ?R (?o :: ?t) ?e =>
                change (R (o :: firstn 6 t ++ skipn 6 t) e) end; cbn [firstn skipn].
              apply BC_close; [reflexivity|reflexivity|repeat constructor; apply hex_ok; reflexivity
                |discriminate].
            + plain_char. constructor. }
        at2 1 1. apply MIs_cons; [discriminate|one_space|not_space|apply MI_plain; bare_arg|].
        apply MIs_nil.
      * at2 1 2. eapply MC_skipped; [one_space
          |cbn [app]; apply Slashdash; [reflexivity|reflexivity|no_space|not_space]|].
        around. apply M_braces; [reflexivity|reflexivity|].
        apply (M_nodes []); [no_space|]. at2 11 0.
        apply MNL_node; [not_space| |no_space|apply MNL_nil].
        at_node 0 10 0 0 0. eapply M_node;
          [apply MO_none| |apply MIs_nil|apply MC_none|no_space|apply Term_semicolon].
        apply MN_marred. around. apply M_string; [reflexivity|reflexivity|].
        bad_escape 5.
        -- match goal with |- ?R (?o :: ?t) ?e =>
             change (R (o :: firstn 4 t ++ skipn 4 t) e) end; cbn [firstn skipn].
           eapply BC_value with (n := 0xD800%N); [reflexivity|reflexivity|cbn; lia| |].
           ++ apply digits_value_hex. split; [repeat constructor; apply hex_ok; reflexivity|reflexivity].
           ++ unfold scalar_value. lia.
        -- plain_char. constructor.
      * no_space.
      * apply Term_semicolon.
    + at2 9 0. apply MNL_node; [not_space| |no_space|apply MNL_nil].
      at_node 0 1 0 8 0. eapply M_node;
        [apply MO_none|bare_name|apply MIs_nil| |no_space|apply Term_eof].
      match goal with |- ?R ?s ?r ?e => change (R ([] ++ s) r e) end.
      apply MC_some; [no_space|]. around. apply M_braces; [reflexivity|reflexivity|].
      apply (M_nodes []); [no_space|]. at3 2 4 0. eapply MNL_skipped; [| |no_space|apply MNL_nil].
      * cbn [app]. apply Slashdash; [reflexivity|reflexivity|no_space|not_space].
      * at_node 0 1 2 0 0. eapply M_node;
          [apply MO_none|bare_name| |apply MC_none|no_space|apply Term_semicolon].
        at2 1 1. apply MIs_cons; [discriminate|one_space|not_space|apply MI_plain; bare_arg|].
        apply MIs_nil.
  - reflexivity.
Qed.

Lemma marred_sample : marred_text marred_source marred_errors.
Proof.
  destruct marred_derivation as [es [M <-]]. exists marred_tokens. split; [|exact M].
  apply offset_with_offsets.
Qed.
