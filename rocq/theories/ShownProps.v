(** What is shown of errors. *)

From Coq Require Import NArith ZArith PeanoNat List Bool String Lia.
From Verif Require Import Chars Ast Errors Kdl Chumsky Spans Grammar ErrSpec ErrGrammar TokenProps Decode Scalar Containers
  DecodeSpec DecodeProps DeriveDef Derive DeriveSpec FieldSpec StructSpec UnwrapSpec HandSpec
  HonestProps PointSpec PointProps TruthSpec TruthProps ErrorText ShownSpec ShownParse.
Import ListNotations.
Local Open Scope N_scope.
Local Open Scope list_scope.

(** ** Tokens *)

Lemma hex_from_app s t acc m n : hex_from s acc m -> hex_from t m n -> hex_from (s ++ t) acc n.
Proof. induction 1; cbn [app]; auto. intros. econstructor; eauto. Qed.

Lemma hex_digits_from f : forall n acc r, n <> 0 -> n < 2 ^ N.of_nat f -> hex_from acc n r ->
  hex_from (hex_digits f n acc) 0 r.
Proof.
  assert (D : forall n, hex_digit (if n mod 16 <? 10 then 0x30 + n mod 16 else 0x61 + (n mod 16 - 10)) (n mod 16)).
  { intros n. destruct (N.ltb_spec (n mod 16) 10); constructor; lia. }
  induction f as [|f IH]; intros n acc r Y B H; [cbn in B; lia|]. cbn [hex_digits].
  destruct (N.eqb_spec (n / 16) 0) as [Z|Z].
  - econstructor; [apply D|]. replace (0 * 16 + n mod 16) with n by lia. exact H.
  - apply IH; [exact Z| |].
    + rewrite Nat2N.inj_succ, N.pow_succ_r' in B. clear - B. lia.
    + econstructor; [apply D|]. replace (n / 16 * 16 + n mod 16) with n by lia. exact H.
Qed.

Lemma hex_digits_lead f : forall n acc, n <> 0 -> n < 2 ^ N.of_nat f -> exists c s,
  hex_digits f n acc = c :: s /\ c <> 0x30.
Proof.
  induction f as [|f IH]; intros n acc Z B; [cbn in B; lia|]. cbn [hex_digits].
  destruct (N.eqb_spec (n / 16) 0) as [Y|Y].
  - eexists _, _. split; [reflexivity|]. destruct (N.ltb_spec (n mod 16) 10); lia.
  - apply IH; [exact Y|]. rewrite Nat2N.inj_succ, N.pow_succ_r' in B. clear - B. lia.
Qed.

Lemma hex_right n : hex_of n (hex_digits (S (N.to_nat (N.log2 n))) n []).
Proof.
  destruct (N.eq_dec n 0) as [->|Z].
  - split; [|split; [discriminate|]].
    + apply HF_digit with (d := 0); [apply (HD_digit 0); reflexivity|constructor].
    + intros s' H. vm_compute in H. injection H as <-. reflexivity.
  - assert (K : n < 2 ^ N.of_nat (S (N.to_nat (N.log2 n)))).
    { rewrite Nat2N.inj_succ, N2Nat.id. apply N.log2_spec. lia. }
    destruct (hex_digits_lead _ n [] Z K) as (c & s & E & C). split; [|rewrite E; split; [discriminate|congruence]].
    apply hex_digits_from; [exact Z|exact K|constructor].
Qed.

Lemma invisible_right c : c < 0x20 \/ 0x7E < c -> invisible c (escape_default_char c).
Proof.
  intros H. unfold escape_default_char.
  destruct (N.eqb_spec c 0x09) as [->|N1]; [constructor|].
  destruct (N.eqb_spec c 0x0D) as [->|N2]; [constructor|].
  destruct (N.eqb_spec c 0x0A) as [->|N3]; [constructor|].
  destruct (N.eqb_spec c 0x27) as [->|N4]; [lia|].
  destruct (N.eqb_spec c 0x22) as [->|N5]; [lia|].
  destruct (N.eqb_spec c 0x5C) as [->|N6]; [lia|]. cbn [orb].
  destruct (N.leb_spec 0x20 c); [destruct (N.leb_spec c 0x7E); [lia|]|]; cbn [andb];
    (constructor; [|exact H|apply hex_right]); cbn [In]; intros [X|[X|[X|[]]]]; congruence.
Qed.

Lemma letter_right c : letter c (escape_default_char c).
Proof.
  destruct (N.ltb_spec c 0x20) as [H|H]; [apply Le_invisible, invisible_right; now left|].
  destruct (N.leb_spec c 0x7E) as [K|K]; [|apply Le_invisible, invisible_right; now right].
  unfold escape_default_char.
  destruct (N.eqb_spec c 0x09) as [->|N1]; [lia|].
  destruct (N.eqb_spec c 0x0D) as [->|N2]; [lia|].
  destruct (N.eqb_spec c 0x0A) as [->|N3]; [lia|].
  destruct (N.eqb_spec c 0x27) as [->|N4]; [apply Le_quote; cbn; auto|].
  destruct (N.eqb_spec c 0x22) as [->|N5]; [apply Le_quote; cbn; auto|].
  destruct (N.eqb_spec c 0x5C) as [->|N6]; [apply Le_quote; cbn; auto|]. cbn [orb].
  destruct (N.leb_spec 0x20 c); [|lia]. destruct (N.leb_spec c 0x7E); [|lia]. cbn [andb].
  apply Le_plain; [lia|]. cbn [In]. intros [X|[X|[X|[]]]]; congruence.
Qed.

Lemma word_right t : word t (escape_default t).
Proof.
  induction t as [|c t IH]; [constructor|]. cbn [escape_default flat_map].
  constructor; [apply letter_right|exact IH].
Qed.

Lemma spelled_right k : spelled k (token_display k).
Proof.
  destruct k as [c|s|s|n|n|]; cbn [token_display].
  - destruct ((c =? 0x22) || (c =? 0x27) || (c =? 0x5C)) eqn:Q.
    + apply Sp_char. apply Bool.orb_true_iff in Q. rewrite Bool.orb_true_iff, !N.eqb_eq in Q. lia.
    + destruct (letter_right c) as [c I|c P I|c s I].
      * exfalso. cbn [In] in I. destruct I as [<-|[<-|[<-|[]]]]; discriminate Q.
      * now apply Sp_char.
      * now apply Sp_escape.
  - apply Sp_token, word_right.
  - apply Sp_kind.
  - exact (Sp_open n).
  - exact (Sp_close n).
  - apply Sp_end.
Qed.

(** ** Printable *)

Lemma printable_app a b : printable a -> printable b -> printable (a ++ b).
Proof. intros A B. apply Forall_app. auto. Qed.

Definition printable_check (t : text) : bool := forallb (fun c => (0x20 <=? c) && (c <=? 0x7E)) t.

Lemma printable_checked t : printable_check t = true -> printable t.
Proof.
  unfold printable_check. rewrite forallb_forall. intros H. apply Forall_forall. intros c I.
  specialize (H c I). apply andb_prop in H as [A B]. apply N.leb_le in A, B. lia.
Qed.

Ltac fixed := apply printable_checked; vm_compute; reflexivity.

Lemma hex_printable s acc n : hex_from s acc n -> printable s.
Proof.
  induction 1 as [|c d s acc n D _ IH]; constructor; [|exact IH]. destruct D; lia.
Qed.

Lemma invisible_printable c s : invisible c s -> printable s.
Proof.
  intros []; try fixed. apply printable_app; [fixed|]. apply printable_app; [|fixed].
  match goal with H : hex_of _ _ |- _ => destruct H as [H _]; eapply hex_printable; exact H end.
Qed.

Lemma letter_printable c s : letter c s -> printable s.
Proof.
  intros [d I|d P I|d t I].
  - constructor; [lia|]. constructor; [|constructor]. cbn [In] in I. lia.
  - constructor; [lia|constructor].
  - eapply invisible_printable, I.
Qed.

Lemma word_printable t s : word t s -> printable s.
Proof. induction 1 as [|c s t u Lt _ IH]; [constructor|]. apply printable_app; [eapply letter_printable, Lt|exact IH]. Qed.

Lemma escape_printable t : printable (escape_default t).
Proof. eapply word_printable, word_right. Qed.

Lemma sharps_printable n : printable (repeat 0x23 n).
Proof. apply Forall_forall. intros c I. apply repeat_spec in I. subst. lia. Qed.

Lemma token_printable k s : spelled k s -> (forall t, k = TKind t -> printable t) -> printable s.
Proof.
  intros [] K; repeat (first [assumption|fixed|apply printable_app|apply sharps_printable]).
  - constructor; [assumption|constructor].
  - eapply invisible_printable; eassumption.
  - eapply word_printable; eassumption.
  - now apply K.
Qed.

Lemma display_printable k : (forall t, k = TKind t -> printable t) -> printable (token_display k).
Proof. apply token_printable, spelled_right. Qed.

Lemma nameable_printable k : nameable k -> printable (token_display k).
Proof.
  intros N. apply display_printable. intros t ->. cbn [nameable In] in N.
  repeat (destruct N as [<-|N]; [fixed|]). destruct N.
Qed.

Lemma commas_printable l : Forall nameable l -> printable (commas l).
Proof.
  induction 1 as [|k l K _ IH]; [constructor|]. cbn [commas].
  repeat apply printable_app; [fixed|now apply nameable_printable|exact IH].
Qed.

Lemma unexpected_printable f x : printable (token_display f) -> Forall nameable x ->
  printable (format_unexpected f x).
Proof.
  intros F X. unfold format_unexpected. apply printable_app; [fixed|]. apply printable_app; [exact F|].
  destruct X as [|k x K X]; [constructor|]. apply printable_app; [fixed|].
  apply printable_app; [now apply nameable_printable|].
  destruct (rev x) as [|b m] eqn:R; [constructor|].
  apply Forall_rev in X. rewrite R in X. inversion X as [|? ? B M]; subst.
  apply printable_app; [now apply commas_printable, Forall_rev|].
  apply printable_app; [fixed|now apply nameable_printable].
Qed.

Lemma worded_printable {Sp} (e : perror Sp) : worded e -> perror_printable e.
Proof.
  intros W. unfold perror_printable.
  destruct W as [sp c x X|sp x X|sp c x _ X|sp c x _ X|sp k x _ _ X|sp x _ X|sp x _ X|what oa o ea c o' c' D|sp|sp|sp];
    cbn [perror_message perror_labels perror_help];
    (split; [|split; [|first [discriminate|intros h H'; injection H' as <-; fixed]]]);
    try fixed; try (apply unexpected_printable; [apply display_printable; discriminate|assumption]);
    try (constructor; [fixed|]; try (solve [constructor])).
  - apply unexpected_printable; [|assumption]. apply display_printable. intros t H'. injection H' as <-. fixed.
  - apply unexpected_printable; [|assumption]. apply display_printable. intros t H'. injection H' as <-. fixed.
  - assert (printable (str what)) by (destruct D; fixed).
    repeat apply printable_app; try fixed; [assumption|]. apply display_printable. destruct D; discriminate.
  - constructor; [|constructor]. cbn [fst]. apply printable_app; [fixed|].
    apply display_printable. destruct D; discriminate.
Qed.

Lemma parse_printable t errs : parse_ast_span t = Rejected errs -> Forall perror_printable errs.
Proof. intros H. eapply Forall_impl; [|exact (parse_worded t errs H)]. apply @worded_printable. Qed.

Lemma parse_printable_line width t errs : parse_ast_linespan width t = Rejected errs ->
  Forall perror_printable errs.
Proof. intros H. eapply Forall_impl; [|exact (parse_worded_line width t errs H)]. apply @worded_printable. Qed.

(** ** Expected types and kinds *)

Lemma types_listed l : forall a b,
  enumerated (a :: map typename_as_str l ++ [b]) (a ++ type_commas l ++ str " or " ++ b).
Proof.
  induction l as [|c l IH]; intros a b; cbn [map app type_commas].
  - apply En_two.
  - specialize (IH (typename_as_str c) b). rewrite <- !app_assoc.
    destruct l as [|d l]; cbn [map app] in *; apply En_more; exact IH.
Qed.

Lemma expected_listed e : accepted e <> [] -> enumerated (accepted e) (expected_type_display e).
Proof.
  destruct e as [ts nt]. unfold accepted, expected_type_display. cbn [et_types et_no_type]. intros N.
  destruct ts as [|a l].
  - cbn [map app] in *. destruct nt; [constructor|congruence].
  - destruct nt.
    + cbn [map app]. exact (types_listed l (typename_as_str a) (str "no type")).
    + rewrite app_nil_r. cbn [map]. destruct (rev l) as [|b m] eqn:R.
      * assert (l = []) as -> by (rewrite <- (rev_involutive l), R; reflexivity).
        rewrite app_nil_r. constructor.
      * assert (l = rev m ++ [b]) as -> by (rewrite <- (rev_involutive l), R; reflexivity).
        rewrite map_app. apply types_listed.
Qed.

Lemma kind_named k : kind_name k (kind_as_str k).
Proof. destruct k; constructor. Qed.

(** ** Labels of parse errors *)

Lemma error_labelled t e : error_right t e -> worded e -> labelled t (perror_labels e).
Proof.
  intros R W. destruct W as [sp c x X|sp x X|sp c x _ X|sp c x _ X|sp k x K _ X|sp x _ X|sp x _ X
    |what oa o ea c o' c' D|sp|sp|sp]; cbn [error_right perror_labels] in *.
  8: { destruct R as ((p & u & v & q & D' & C & _) & -> & _). eapply Lb_unclosed; [exact D'|exists p, q; exact C|apply spelled_right]. }
  all: lazymatch type of R with _ /\ _ => destruct R as [R _] | _ => idtac end; cbn [found_at] in R;
    try (eapply Lb_one; [cbn [In]; tauto| |exact R]; discriminate);
    try (destruct R as (s & R & N); eapply Lb_one; [cbn [In]; tauto|exact N|exact R]).
  - subst sp. apply Lb_end.
  - eapply Lb_one; [cbn [In]; tauto| |exact R]. cbn [In] in K. intuition subst; discriminate.
Qed.

Lemma parse_labelled t errs : parse_ast_span t = Rejected errs ->
  Forall (fun e => labelled t (perror_labels e)) errs.
Proof.
  intros H. apply Forall_forall. intros e I. apply error_labelled.
  - pose proof (parse_errors_right t errs H) as R. rewrite Forall_forall in R. auto.
  - pose proof (parse_worded t errs H) as R. rewrite Forall_forall in R. auto.
Qed.

(** ** Decode errors: spans *)

Lemma labels_pointed {Sp} (e : derror Sp) : map snd (derror_labels e) = lone (error_span e).
Proof. destruct e; reflexivity. Qed.

Lemma map_message other {Sp U} (g : Sp -> U) e : derror_message other (map_derror_span g e) = derror_message other e.
Proof. destruct e; reflexivity. Qed.

Lemma map_labels {Sp U} (g : Sp -> U) e :
  derror_labels (map_derror_span g e) = map (fun l => (fst l, g (snd l))) (derror_labels e).
Proof. destruct e; reflexivity. Qed.

(** ** Decoders *)

Section Shows.
Context (other : N -> text) {Sp L : Type} (kebab : text -> text).
Hypothesis OP : forall c, printable (other c).
Notation okay := (derror_printable other).
Implicit Types (i : tyimpl Sp L).

Lemma may_okay {A} (E : derror Sp -> Prop) (m : dec Sp A) e : reports E m -> may_report m e -> E e.
Proof.
  intros R (c & [H|(es & H & I)]); destruct (R c) as [(es' & H' & F) K]; [exact (K e H)|].
  rewrite H in H'. apply app_inv_head in H'. subst. rewrite Forall_forall in F. auto.
Qed.

Lemma kind_printable k : printable (kind_as_str k).
Proof. destruct k; fixed. Qed.

Lemma kind_okay want (v : spanned literal Sp) : okay (scalar_kind want v).
Proof.
  intros _. cbn [scalar_kind derror_message derror_labels]. split.
  - repeat apply printable_app; try fixed; apply kind_printable.
  - constructor; [|constructor]. cbn [fst]. apply printable_app; [fixed|apply kind_printable].
Qed.

Lemma source_okay (s : source) : (forall t, s = SMsg t -> printable t) -> printable (source_display other s).
Proof. destruct s as [[]|t|c]; intros H; try fixed; [now apply H|apply OP]. Qed.

Lemma conversion_okay sp s : printable (source_display other s) -> okay (DConversion (Sp := Sp) sp s).
Proof. intros H _. split; [exact H|]. constructor; [fixed|constructor]. Qed.

Lemma missing_okay sp m : printable m -> okay (DMissing (Sp := Sp) sp m).
Proof. intros H _. split; [exact H|]. constructor; [fixed|constructor]. Qed.

Lemma missing_node_okay m : printable m -> okay (DMissingNode (Sp := Sp) m).
Proof. intros H _. split; [exact H|constructor]. Qed.

Lemma unexpected_okay sp w m : printable w -> printable m -> okay (DUnexpected (Sp := Sp) sp w m).
Proof.
  intros W H _. split; [exact H|]. constructor; [|constructor]. cbn [fst].
  apply printable_app; [fixed|exact W].
Qed.

Lemma builtin_printable b : printable (builtin_as_str b).
Proof. destruct b; fixed. Qed.

Lemma type_okay sp (t : typename) e name : printable (expected_type_display e) -> printable name ->
  okay (DTypeName (Sp := Sp) sp (Some t) e name).
Proof.
  intros E P T. cbn [shown_type] in T. cbn [derror_message derror_labels]. split.
  - repeat apply printable_app; try fixed; assumption.
  - constructor; [fixed|constructor].
Qed.

Lemma optional_printable b : printable (expected_type_display (et_optional (Builtin b))).
Proof. destruct b; fixed. Qed.

Lemma no_types_printable : printable (expected_type_display et_no_types).
Proof. fixed. Qed.

Lemma bytes_okay (v : value Sp) : logs okay (fun c => fst (bytes v c)).
Proof.
  unfold bytes. destruct (v_type_name v) as [t|].
  - destruct (typename_as_builtin (s_value t)) as [[]|];
      try (apply logs_emit, type_okay; [apply optional_printable|fixed]).
    destruct (s_value (v_literal v)); try (apply logs_emit, kind_okay).
    destruct (b64_decode _); [apply logs_id|apply logs_emit, conversion_okay, OP].
  - destruct (s_value (v_literal v)); try apply logs_id; apply logs_emit, kind_okay.
Qed.

Lemma convert_okay {T A} (x : spanned T Sp) (r : A + source) :
  (forall e, r = inr e -> printable (source_display other e)) -> reports okay (d_convert x r).
Proof. intros H. destruct r; [apply says_ok|]. apply says_err, conversion_okay. auto. Qed.

Lemma value_okay m o i v : shows other i -> reports okay (decode_value m o i v).
Proof.
  intros H. unfold decode_value.
  assert (St : reports okay (str_type_name v)).
  { unfold str_type_name. destruct (v_type_name v); [|apply says_ok].
    apply says_emit, type_okay; [apply no_types_printable|fixed]. }
  pose proof (kind_okay KString (v_literal v)) as Sk.
  destruct m, o; try apply (sw_scalar _ _ H).
  - apply says_bind; [exact St|]. intros _. destruct (s_value (v_literal v));
      first [apply says_ok|apply says_map, convert_okay, (sw_from_str _ _ H)
            |apply says_bind; [now apply says_emit|intros; apply says_ok]].
  - apply says_bind; [exact St|]. intros _. destruct (s_value (v_literal v));
      first [now apply says_err|apply convert_okay, (sw_from_str _ _ H)].
  - assert (By : reports okay (fun c => let '(c', b) := bytes v c in
          match ti_from_bytes i b with
          | inl x => (c', DOk (VSome x))
          | inr e => (emit_error (conversion (v_literal v) e) c', DOk VNone)
          end)).
    { intros c. destruct (bytes_okay v c) as (es & B1 & B2). destruct (bytes v c) as [c' b].
      cbn [fst] in B1. destruct (ti_from_bytes i b) eqn:Fb; cbn [fst snd]; (split; [|discriminate]).
      - eauto.
      - exists (es ++ [conversion (v_literal v) s]). cbn [emit_error c_errors].
        rewrite B1, app_assoc. split; [reflexivity|]. apply Forall_app. split; [exact B2|].
        constructor; [|constructor]. apply conversion_okay, (sw_from_bytes _ _ H b), Fb. }
    destruct (s_value (v_literal v)); try apply says_ok; exact By.
  - intros c. destruct (bytes_okay v c) as (es & B1 & B2). destruct (bytes v c) as [c' b].
    cbn [fst] in B1.
    destruct (convert_okay (v_literal v) (ti_from_bytes i b) (sw_from_bytes _ _ H b) c')
      as [(es' & C1 & C2) C3].
    split; [|exact C3]. exists (es ++ es'). rewrite C1, B1, app_assoc. split; [reflexivity|].
    apply Forall_app. now split.
Qed.

(** *** The errors of a struct *)

Implicit Types (n : snode Sp) (e : derror Sp).

Lemma special_okay spans names types n e :
  (forall f, In f spans -> shows other (f_impl f)) -> (forall f, In f names -> shows other (f_impl f)) ->
  (forall f o, In (f, o) types -> shows other (f_impl f)) ->
  special_error (L := L) spans names types n e -> okay e.
Proof.
  intros H1 H2 H3 X. destruct X.
  - eapply may_okay; [|eassumption]. apply sw_span. auto.
  - eapply conversion_okay, sw_from_str; eauto.
  - eapply conversion_okay, sw_from_str; eauto.
  - apply missing_okay. fixed.
  - apply unexpected_okay; fixed.
Qed.

Lemma argument_okay args var n e :
  (forall a, In a args -> shows other (f_impl (ar_field a))) ->
  (forall f m, var = Some (f, m) -> shows other (f_impl f)) ->
  (forall a x, In a args -> f_attr (ar_field a) = Named x -> printable x) ->
  argument_error (L := L) args var n e -> okay e.
Proof.
  intros H1 H2 H3 X. destruct X as [i a v e A V M|f m i v e E _ _ M|i a A _ _ _|v E _].
  - eapply may_okay; [|exact M]. apply value_okay, H1. eapply nth_error_In, A.
  - eapply may_okay; [|exact M]. eapply value_okay, H2, E.
  - apply missing_okay. unfold argument_message. apply nth_error_In in A.
    destruct (f_attr (ar_field a)) as [x|x] eqn:Fa; [fixed|].
    repeat apply printable_app; try fixed. eauto.
  - apply unexpected_okay; fixed.
Qed.

Lemma backquote_printable a t b : printable (str a) -> printable (str b) ->
  printable (str a ++ escape_default t ++ str b).
Proof. intros. apply printable_app; [assumption|]. apply printable_app; [apply escape_printable|assumption]. Qed.

Lemma property_okay ps var n e :
  (forall p, In p ps -> shows other (f_impl (pr_field p))) ->
  (forall f m, var = Some (f, m) -> shows other (f_impl f)) ->
  (forall p, In p ps -> printable (pr_name p)) ->
  property_error (L := L) ps var n e -> okay e.
Proof.
  intros H1 H2 H3 X. destruct X as [p k v e P _ _ M|f m k v e E _ _ M|f m k v why E _ _ K|p P _ _ _|k v E _ _].
  - eapply may_okay; [|exact M]. apply value_okay. auto.
  - eapply may_okay; [|exact M]. eapply value_okay, H2, E.
  - eapply conversion_okay, sw_key; [eapply H2, E|exact K].
  - apply missing_okay. repeat apply printable_app; try fixed. auto.
  - apply unexpected_okay; [fixed|]. apply backquote_printable; fixed.
Qed.

Lemma flag_okay (n : node Sp) e : In e (flag_errors n) -> okay e.
Proof.
  unfold flag_errors. rewrite !in_app_iff, !in_map_iff.
  intros [(v & <- & _)|[(v & <- & _)|(v & <- & _)]]; (apply unexpected_okay; [fixed|]);
    first [fixed|apply backquote_printable; fixed].
Qed.

Lemma child_okay dn dv ds place ns e :
  (forall d m, In d ds -> reports okay (dn d m)) ->
  (forall f m, dv = Some f -> reports okay (f m)) ->
  (forall d, In d ds -> printable (ch_name d)) ->
  child_error (L := L) dn dv ds place ns e -> okay e.
Proof.
  intros H1 H2 H3 X. destruct X as [d m e D _ _ _ M|f m e E _ _ M|d D _ _ _ _|d b m a D _ _ _ _
    |d m e D _ _ _ F|m E _ _].
  - eapply may_okay; [|exact M]. auto.
  - eapply may_okay; [|exact M]. auto.
  - assert (printable (str "child node `" ++ ch_name d ++ str "` is required"))
      by (repeat apply printable_app; try fixed; auto).
    destruct place; [now apply missing_okay|now apply missing_node_okay].
  - apply unexpected_okay; [fixed|]. apply backquote_printable; fixed.
  - eapply flag_okay, F.
  - apply unexpected_okay; [fixed|]. apply backquote_printable; fixed.
Qed.

(** *** What is unwrapped *)

Lemma unwrap_okay (f : field Sp L) : shows other (f_impl f) -> within appends (f_impl f) ->
  printable (tmp_name (f_attr f)) -> printable (kebab (tmp_name (f_attr f))) ->
  forall (a : field_attrs L) n, inside_printable a -> reports okay (node_fn kebab f (Some a) n).
Proof.
  intros Hf Wf P1 P2. fix go 1. intros [mode parse inner default] n.
  assert (In_ : match inner with Some u => inside_printable u | None => True end ->
     forall m, reports okay (node_fn kebab f inner m)).
  { intros I m. destruct inner as [u|]; [now apply go|]. apply (sw_node _ _ Hf). }
  clear go. cbn [inside_printable]. intros [(m & -> & U & Pm) I]. specialize (In_ I).
  eapply reports_mono; [|exact (unwrap_true kebab f m parse inner default n Wf U)].
  intros e [X|[X|X]].
  - eapply argument_okay; [ | | |exact X].
    + intros a. destruct m; cbn; try contradiction. intros [<-|[]]. exact Hf.
    + intros g k. destruct m; cbn; try discriminate. intros H. injection H as <- <-. exact Hf.
    + intros a x. destruct m; cbn; try contradiction. intros [<-|[]] H. cbn in H. injection H as <-. exact P1.
  - eapply property_okay; [ | | |exact X].
    + intros a. destruct m; cbn; try contradiction. intros [<-|[]]. exact Hf.
    + intros g k. destruct m; cbn; try discriminate. intros H. injection H as <- <-. exact Hf.
    + intros a. destruct m as [|[t|]| | | | | | | |]; cbn; try contradiction; intros [<-|[]]; cbn; auto.
  - eapply child_okay; [ | | |exact X].
    + intros d k _. apply In_.
    + intros g k. destruct m as [| | | |[t|]| | | | |]; cbn; try discriminate. intros H. injection H as <-. apply In_.
    + intros d. destruct m as [| | | |[t|]| | | | |]; cbn; try contradiction; intros [<-|[]]; cbn; auto.
Qed.

Lemma child_fn_okay (f : field Sp L) u n : shows other (f_impl f) -> within appends (f_impl f) ->
  unwraps_printable kebab f u -> reports okay (node_fn kebab f u n).
Proof.
  intros H W U. destruct u as [a|]; [|apply (sw_node _ _ H)].
  destruct U as (U1 & U2 & U3). now apply unwrap_okay.
Qed.

End Shows.

(** *** Structs *)

Section Struct.
Context (other : N -> text) {Sp L : Type} (kebab : text -> text) (fs : list (src_field Sp L)).
Hypothesis OP : forall c, printable (other c).

Section Fields.
Variable P : tyimpl Sp L -> Prop.
Hypothesis F : Forall (fun f => P (sf_impl f)) fs.

Lemma field_holds x : In x (numbered fs) -> P (f_impl (the_field x)).
Proof.
  destruct x as [k f]. intros I. apply in_combine_r in I. rewrite Forall_forall in F. exact (F f I).
Qed.

Lemma hd_in {A} (l : list A) x : hd_error l = Some x -> In x l.
Proof. destruct l; [discriminate|]. intros H. injection H as <-. now left. Qed.

Ltac filed := rewrite in_flat_map; intros (x & I & J); apply field_holds in I; revert J.

Lemma fields_hold :
  (forall f, In f (flat_map spans_of (numbered fs)) -> P (f_impl f))
  /\ (forall f, In f (flat_map node_names_of (numbered fs)) -> P (f_impl f))
  /\ (forall f o, In (f, o) (flat_map type_names_of (numbered fs)) -> P (f_impl f))
  /\ (forall a, In a (the_arguments fs) -> P (f_impl (ar_field a)))
  /\ (forall f m, the_var_args fs = Some (f, m) -> P (f_impl f))
  /\ (forall p, In p (the_properties kebab fs) -> P (f_impl (pr_field p)))
  /\ (forall f m, the_var_props fs = Some (f, m) -> P (f_impl f))
  /\ (forall d, In d (the_children kebab fs) -> P (f_impl (ch_field d)))
  /\ (forall f u, the_var_children fs = Some (f, u) -> P (f_impl f)).
Proof.
  split; [|split; [|split; [|split; [|split; [|split; [|split; [|split]]]]]]].
  - intros f. filed. unfold spans_of. destruct (mode_of x) as [[]|]; try contradiction. intros [<-|[]]. exact I.
  - intros f. filed. unfold node_names_of. destruct (mode_of x) as [[]|]; try contradiction. intros [<-|[]]. exact I.
  - intros f o. filed. unfold type_names_of. destruct (mode_of x) as [[]|]; try contradiction.
    intros [H|[]]. injection H as <- <-. exact I.
  - intros f. unfold the_arguments. filed. unfold arguments_of. destruct (mode_of x) as [[]|]; try contradiction.
    intros [<-|[]]. exact I.
  - intros f m H. apply hd_in in H. revert H. filed. unfold var_args_of.
    destruct (mode_of x) as [[]|]; try contradiction. intros [H|[]]. injection H as <- <-. exact I.
  - intros f. unfold the_properties. filed. unfold properties_of.
    destruct (mode_of x) as [[| | | | | |? []| | |]|]; try contradiction; intros [<-|[]]; exact I.
  - intros f m H. apply hd_in in H. revert H. filed. unfold var_props_of.
    destruct (mode_of x) as [[]|]; try contradiction. intros [H|[]]. injection H as <- <-. exact I.
  - intros f. unfold the_children. filed. unfold children_of.
    destruct (mode_of x) as [[| | | |[]| |[] ?| | |]|]; try contradiction; intros [<-|[]]; exact I.
  - intros f m H. apply hd_in in H. revert H. filed. unfold var_children_of.
    destruct (mode_of x) as [[| | | |[]| | | | |]|]; try contradiction. intros [H|[]]. injection H as <- <-. exact I.
Qed.

End Fields.

Hypothesis W : Forall (fun f => within appends (sf_impl f)) fs.
Hypothesis S : fields_show other kebab fs.

Lemma children_error_okay place ns e : children_error kebab fs place ns e -> derror_printable other e.
Proof.
  pose proof (fields_hold _ W) as Hw. pose proof (fields_hold _ (fw_fields _ _ _ S)) as Hs.
  destruct Hw as (_ & _ & _ & _ & _ & _ & _ & Wc & Wr). destruct Hs as (_ & _ & _ & _ & _ & _ & _ & Sc & Sr).
  destruct (fw_names _ _ _ S) as (_ & _ & N3). rewrite Forall_forall in N3.
  apply child_okay.
  - intros d m I. apply child_fn_okay; auto. now apply (fw_children _ _ _ S).
  - intros f m E. unfold rest_decoder in E. destruct (the_var_children fs) as [[g u]|] eqn:V; [|discriminate].
    injection E as <-. apply child_fn_okay; eauto. now apply (fw_rest _ _ _ S).
  - exact N3.
Qed.

Lemma struct_error_okay n e : struct_error kebab fs n e -> derror_printable other e.
Proof.
  pose proof (fields_hold _ (fw_fields _ _ _ S)) as Hs.
  destruct Hs as (S1 & S2 & S3 & S4 & S5 & S6 & S7 & _ & _).
  destruct (fw_names _ _ _ S) as (N1 & N2 & _). rewrite Forall_forall in N2.
  intros [X|[X|[X|X]]].
  - eapply special_okay; [| | |exact X]; assumption.
  - eapply argument_okay; [| | | |exact X]; eassumption.
  - eapply property_okay; [| | | |exact X]; eassumption.
  - eapply children_error_okay. exact X.
Qed.

End Struct.

Lemma struct_shows Sp L kebab named ident cont (fs : list (src_field Sp L)) d :
  derives_struct kebab named ident cont fs d ->
  forall other, (forall c, printable (other c)) ->
  Forall (fun f => within appends (sf_impl f)) fs -> fields_show other kebab fs -> plain_fields kebab fs ->
  forall n, reports (derror_printable other) (dr_node d n).
Proof.
  intros D other OP W S PL n. eapply reports_mono; [|exact (struct_true _ _ _ _ _ _ D W n PL)].
  intros e. now apply struct_error_okay.
Qed.

Lemma document_shows L kebab named ident cont (fs : list (src_field span L)) d :
  derives_struct kebab named ident cont fs d ->
  forall other, (forall c, printable (other c)) ->
  Forall (fun f => within appends (sf_impl f)) fs -> fields_show other kebab fs ->
  plain_children (the_children kebab fs) ->
  forall t f es, dr_children d = Some f -> parse (parse_ast_span t) f = Decode_errors es ->
  Forall (derror_printable other) es.
Proof.
  intros D other OP W S PL t f es C P.
  destruct (document_parse_true _ _ _ _ _ _ _ D W t f es PL C P) as (doc & _ & F).
  eapply Forall_impl; [|exact F]. intros e. now apply children_error_okay.
Qed.

(** ** The library *)

Section Library.
Context (other : N -> text) {Sp : Type}.
Hypothesis OP : forall c, printable (other c).
Notation okay := (derror_printable other).

Lemma default_shows {A} tc (rd : spanned literal Sp -> dec Sp A) :
  (forall ty, logs okay (tc ty)) -> (forall v, reports okay (rd v)) -> shows_scalar other (scalar_default tc rd).
Proof.
  intros H1 H2. split; auto. intros v c. cbn [scalar_default sc_decode]. unfold default_decode.
  destruct (H1 (v_type_name v) c) as (es & E1 & E2).
  destruct (H2 (v_literal v) (tc (v_type_name v) c)) as [(es' & E3 & E4) E5].
  split; [|exact E5]. exists (es ++ es'). rewrite E3, E1, app_assoc. split; [reflexivity|].
  apply Forall_app. now split.
Qed.

Lemma no_type_check_shows name ty : printable name -> logs okay (no_type_check (Sp := Sp) name ty).
Proof.
  intros H. destruct ty; [|apply logs_id]. apply logs_emit, type_okay; [apply no_types_printable|exact H].
Qed.

Lemma number_type_check_shows marker ty :
  logs okay (number_type_check (Sp := Sp) marker (builtin_as_str marker) ty).
Proof.
  destruct ty as [t|]; unfold number_type_check; [|apply logs_id].
  destruct (typename_as_builtin (s_value t)); [destruct (builtin_eqb _ _); [apply logs_id|]|];
    apply logs_emit, type_okay; try apply optional_printable; apply builtin_printable.
Qed.

Ltac raw := intros c; split;
  [first [exists []; rewrite app_nil_r; split; [reflexivity|constructor]
         |eexists [_]; split; [reflexivity|constructor; [first [apply kind_okay|apply conversion_okay, source_okay; [exact OP|discriminate]]|constructor]]]
  |intros e K; first [discriminate K|injection K as <-; first [apply kind_okay|apply conversion_okay, source_okay; [exact OP|discriminate]]]].

Lemma string_shows t : shows_scalar (Sp := Sp) other (string_impl t).
Proof.
  apply default_shows; [intros; apply no_type_check_shows; destruct t; fixed|]. intros v. unfold string_raw_decode.
  destruct (s_value v); raw.
Qed.

Lemma bool_shows : shows_scalar (Sp := Sp) other bool_impl.
Proof.
  apply default_shows; [intros; apply no_type_check_shows; fixed|]. intros v. unfold bool_raw_decode.
  destruct (s_value v); raw.
Qed.

Lemma int_shows t : shows_scalar (Sp := Sp) other (int_impl t).
Proof.
  apply default_shows; [apply number_type_check_shows|]. intros v. unfold int_raw_decode.
  destruct (s_value v); try destruct (int_try_from _ _ _); raw.
Qed.

Lemma float_shows {F} t (from_str : text -> option F) zero :
  shows_scalar (Sp := Sp) other (float_impl t from_str zero).
Proof.
  apply default_shows; [apply number_type_check_shows|]. intros v. unfold float_raw_decode.
  destruct (s_value v); try destruct (from_str _); raw.
Qed.

Lemma join_printable l : Forall printable l -> printable (join_comma l).
Proof.
  induction 1 as [|t l T _ IH]; [constructor|]. destruct l; cbn [join_comma] in *; [exact T|].
  repeat apply printable_app; [exact T|fixed|exact IH].
Qed.

Lemma quoted_printable t : printable (quoted t).
Proof.
  unfold quoted. constructor; [lia|]. apply printable_app; [apply escape_printable|].
  constructor; [lia|constructor].
Qed.

Lemma decimal_printable f : forall n acc, printable acc -> printable (decimal_digits f n acc).
Proof.
  induction f as [|f IH]; intros n acc H; cbn [decimal_digits]; [exact H|].
  assert (printable (0x30 + n mod 10 :: acc)).
  { constructor; [|exact H]. pose proof (N.mod_lt n 10). lia. }
  destruct (n <? 10); auto.
Qed.

Lemma expected_names_printable l : printable (expected_names l).
Proof.
  unfold expected_names.
  assert (J : printable (str "expected one of " ++ join_comma (map quoted l))).
  { apply printable_app; [fixed|]. apply join_printable, Forall_map, Forall_forall. intros x _.
    apply quoted_printable. }
  destruct l as [|a [|b [|c [|d l]]]]; try exact J.
  repeat apply printable_app; try fixed; try apply quoted_printable. apply decimal_printable. constructor.
Qed.

Lemma scalar_enum_shows {A} name (vs : list (text * A)) : printable name ->
  shows_scalar (Sp := Sp) other (scalar_enum_impl name vs).
Proof.
  intros H. apply default_shows; [intros; now apply no_type_check_shows|]. intros v. unfold scalar_enum_raw.
  destruct (s_value v); try (apply says_err, kind_okay).
  destruct (match_name _ _); [apply says_ok|]. apply says_err, conversion_okay, expected_names_printable.
Qed.

Lemma literal_shows : shows_scalar (Sp := Sp) other literal_impl.
Proof.
  apply default_shows.
  - intros ty. apply logs_id.
  - intros v. apply says_ok.
Qed.

Lemma option_shows {A} (i : scalar_impl Sp A) : shows_scalar other i -> shows_scalar other (option_impl i).
Proof.
  intros [H1 H2 H3]. apply default_shows; [exact H1|]. intros v.
  destruct (s_value v); first [apply says_ok|apply says_map; apply H2].
Qed.

Lemma wrapped_shows {A B} (f : A -> B) (i : scalar_impl Sp A) :
  shows_scalar other i -> shows_scalar other (wrapped_impl f i).
Proof.
  intros [H1 H2 H3]. apply default_shows; [exact H1|]. intros v. apply says_map, H2.
Qed.

Lemma spanned_shows {A Q} (ds : span_impl Sp Q) (i : scalar_impl Sp A) :
  (forall sp, reports okay (d_pure (ds sp))) -> shows_scalar other i ->
  shows_scalar other (spanned_impl ds i).
Proof.
  intros Hs [H1 H2 H3]. apply default_shows; [exact H1|]. intros v. apply says_bind; [apply H2|].
  intros a c. specialize (Hs (s_span v) c). unfold d_pure in Hs.
  destruct (ds (s_span v) c). split; [apply Hs|discriminate].
Qed.

End Library.

Lemma library_shows other : (forall c, printable (other c)) -> forall Sp,
  (forall t, shows_scalar other (string_impl (Sp := Sp) t))
  /\ shows_scalar other (bool_impl (Sp := Sp))
  /\ (forall t, shows_scalar other (int_impl (Sp := Sp) t))
  /\ (forall F t (from_str : text -> option F) zero, shows_scalar other (float_impl (Sp := Sp) t from_str zero))
  /\ (forall A name (vs : list (text * A)), printable name ->
        shows_scalar other (scalar_enum_impl (Sp := Sp) name vs))
  /\ shows_scalar other (literal_impl (Sp := Sp))
  /\ (forall A (i : scalar_impl Sp A), shows_scalar other i -> shows_scalar other (option_impl i))
  /\ (forall A B (f : A -> B) (i : scalar_impl Sp A), shows_scalar other i -> shows_scalar other (wrapped_impl f i))
  /\ (forall A Q (ds : span_impl Sp Q) (i : scalar_impl Sp A),
        (forall sp, reports (derror_printable other) (d_pure (ds sp))) -> shows_scalar other i ->
        shows_scalar other (spanned_impl ds i)).
Proof.
  intros OP Sp. split; [|split; [|split; [|split; [|split; [|split; [|split; [|split]]]]]]].
  - intros t. now apply string_shows.
  - now apply bool_shows.
  - intros t. now apply int_shows.
  - intros F t fs z. now apply float_shows.
  - intros A name vs. now apply scalar_enum_shows.
  - now apply literal_shows.
  - intros A i. now apply option_shows.
  - intros A B f i. now apply wrapped_shows.
  - intros A Q ds i. now apply spanned_shows.
Qed.
