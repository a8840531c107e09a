(** The derive reads attributes as AttrSpec.v says. *)

From Coq Require Import NArith List Bool String Lia Arith Permutation.
From Verif Require Import Chars Ast Errors Decode Scalar DeriveDef Derive LexIdent ScalarProps FieldSpec
  StructSpec FieldProps StructProps AcceptSpec AcceptProps AttrParse AttrSpec.
Import ListNotations.
Local Open Scope string_scope.
Local Open Scope list_scope.

(** ** Depth *)

Lemma group_depth d ts : token_depth (TkGroup d ts) = S (tokens_depth ts).
Proof. cbn. f_equal. Qed.

Lemma depth_cons t ts : tokens_depth (t :: ts) = Nat.max (token_depth t) (tokens_depth ts).
Proof. reflexivity. Qed.

Lemma depth_app a b : tokens_depth (a ++ b) = Nat.max (tokens_depth a) (tokens_depth b).
Proof. induction a as [|t a IH]; cbn; [reflexivity|]. rewrite IH. lia. Qed.

(** ** Lists *)

Lemma at_end_ends ts : at_end ts = true <-> ends ts.
Proof.
  unfold ends. destruct ts as [|[| c | | |] ts]; cbn; split; intros H; auto; try discriminate;
    try (destruct H as [H|[ts' H]]; discriminate).
  - apply N.eqb_eq in H. subst c. right. now exists ts.
  - destruct H as [H|[ts' H]]; [discriminate|]. injection H as -> _. reflexivity.
Qed.

Section Terminated.
Context {A : Type} (p : parser (A * list token)) (P : list token -> A -> Prop) (n : nat).
Hypothesis reads : forall input a rest, tokens_depth input <= n -> ends rest ->
  p input = ([], PDone (a, rest)) <-> exists used, input = used ++ rest /\ P used a.
Hypothesis moves_on : forall input em a rest, p input = (em, PDone (a, rest)) ->
  exists t used, input = t :: used ++ rest.

Lemma never_empty a : ~ P [] a.
Proof.
  intros H. assert (K : p [] = ([], PDone (a, []))).
  { apply reads; [cbn; lia|now left|]. exists []. auto. }
  apply moves_on in K. destruct K as (t & used & K). discriminate.
Qed.

Lemma terminated_reads input l : listed P input l -> forall fuel,
  tokens_depth input <= n -> List.length input < fuel ->
  parse_terminated p fuel input = ([], PDone l).
Proof.
  induction 1 as [|ts a K|ts a ts' l K K' IH]; intros fuel D Len;
    (destruct fuel as [|fuel]; [lia|]); cbn [parse_terminated].
  - reflexivity.
  - assert (E : p ts = ([], PDone (a, []))).
    { apply reads; [exact D|now left|]. exists ts. rewrite app_nil_r. auto. }
    destruct ts; [now apply never_empty in K|]. now rewrite E.
  - assert (E : p (ts ++ TkPunct 44 :: ts') = ([], PDone (a, TkPunct 44 :: ts'))).
    { apply reads; [exact D|right; now exists ts'|]. exists ts. auto. }
    pose proof (moves_on _ _ _ _ E) as (t & used & Q).
    assert (D' : tokens_depth ts' <= n /\ List.length ts' < fuel).
    { rewrite Q in D, Len. rewrite depth_cons, depth_app, depth_cons in D.
      cbn [List.length] in Len. rewrite app_length in Len. cbn [List.length] in Len. lia. }
    rewrite E, (IH fuel) by apply D'. rewrite Q. reflexivity.
Qed.

Lemma terminated_read : forall fuel input l, tokens_depth input <= n -> List.length input < fuel ->
  parse_terminated p fuel input = ([], PDone l) -> listed P input l.
Proof.
  induction fuel as [|fuel IH]; intros input l D Len; [lia|]. cbn [parse_terminated].
  destruct input as [|t input].
  { intros H. injection H as <-. constructor. }
  remember (t :: input) as inp eqn:EI.
  destruct (p inp) as [em [[a rest]| |]] eqn:E; try discriminate.
  pose proof (moves_on _ _ _ _ E) as (t' & used & Q).
  destruct rest as [|[|c| | |] rest]; try discriminate.
  - intros H. injection H as -> <-. rewrite reads in E by (auto; now left).
    destruct E as (u & -> & K). rewrite app_nil_r. now constructor.
  - destruct (N.eqb c comma) eqn:C; [|discriminate]. apply N.eqb_eq in C. subst c.
    destruct (parse_terminated p fuel rest) as [em' [l'| |]] eqn:T; try discriminate.
    intros H. injection H as H <-. apply app_eq_nil in H. destruct H as [-> ->].
    assert (D' : tokens_depth rest <= n /\ List.length rest < fuel).
    { rewrite Q in D, Len. rewrite depth_cons, depth_app, depth_cons in D.
      cbn [List.length] in Len. rewrite app_length in Len. cbn [List.length] in Len. lia. }
    apply IH in T; [|apply D'..].
    rewrite reads in E by (auto; right; now exists rest). destruct E as (u & -> & K).
    now constructor.
Qed.

Lemma terminated_iff fuel input l : tokens_depth input <= n -> List.length input < fuel ->
  parse_terminated p fuel input = ([], PDone l) <-> listed P input l.
Proof.
  intros D Len. split; [now apply terminated_read|]. intros H. now apply terminated_reads.
Qed.

(** The fuel is enough. *)
Hypothesis enough : forall input, tokens_depth input <= n -> snd (p input) <> PFuel.

Lemma terminated_enough : forall fuel input, tokens_depth input <= n -> List.length input < fuel ->
  snd (parse_terminated p fuel input) <> PFuel.
Proof.
  induction fuel as [|fuel IH]; intros input D Len; [lia|]. cbn [parse_terminated].
  destruct input as [|t input]; [discriminate|].
  remember (t :: input) as inp eqn:EI. pose proof (enough inp D) as F.
  destruct (p inp) as [em [[a rest]| |]] eqn:E; [|discriminate|now cbn in F].
  pose proof (moves_on _ _ _ _ E) as (t' & used & Q).
  destruct rest as [|[|c| | |] rest]; try discriminate.
  destruct (N.eqb c comma); [|discriminate].
  assert (D' : tokens_depth rest <= n /\ List.length rest < fuel).
  { rewrite Q in D, Len. rewrite depth_cons, depth_app, depth_cons in D.
    cbn [List.length] in Len. rewrite app_length in Len. cbn [List.length] in Len. lia. }
  specialize (IH rest (proj1 D') (proj2 D')).
  destruct (parse_terminated p fuel rest) as [em' [l'| |]]; cbn in *; congruence.
Qed.

End Terminated.

(** ** Items of [flatten] *)

Lemma flatten_item_iff input c rest :
  flatten_item input = ([], PDone (c, rest)) <-> exists used, input = used ++ rest /\ flattened used c.
Proof.
  split.
  - destruct input as [|[k| | | |] input]; cbn [flatten_item]; try discriminate.
    destruct (text_eqb_reflect k (str "child")) as [->|_]; [|destruct (text_eqb_reflect k (str "property")) as [->|_]; [|discriminate]].
    + intros H. injection H as <- <-. exists [word "child"]. split; [reflexivity|constructor].
    + intros H. injection H as <- <-. exists [word "property"]. split; [reflexivity|constructor].
  - intros (used & -> & H). destruct H; reflexivity.
Qed.

Lemma flatten_item_moves input em c rest : flatten_item input = (em, PDone (c, rest)) ->
  exists t used, input = t :: used ++ rest.
Proof.
  destruct input as [|[k| | | |] input]; cbn [flatten_item]; try discriminate.
  destruct (text_eqb k (str "child")); [|destruct (text_eqb k (str "property")); [|discriminate]];
    intros H; injection H as _ _ <-; now exists (TkIdent k), [].
Qed.

Lemma flatten_items_iff ts l :
  parse_terminated flatten_item (S (List.length ts)) ts = ([], PDone l) <-> listed flattened ts l.
Proof.
  apply (terminated_iff flatten_item flattened (tokens_depth ts)); try lia.
  - intros input c rest _ _. apply flatten_item_iff.
  - exact flatten_item_moves.
Qed.

Lemma flatten_item_quiet input : fst (flatten_item input) = [] /\ snd (flatten_item input) <> PFuel.
Proof.
  destruct input as [|[k| | | |] input]; cbn [flatten_item]; try (split; [reflexivity|discriminate]; fail).
  destruct (text_eqb k (str "child")); [|destruct (text_eqb k (str "property"))];
    (split; [reflexivity|discriminate]).
Qed.

Lemma attrs_update_iff {L} (l : list (attr L)) a :
  attrs_update l = (a, []) <-> attrs_allowed l /\ a = the_attrs l.
Proof.
  split.
  - intros H. split; [apply attrs_emitted; now rewrite H|].
    unfold attrs_update, attrs_new in H. apply attrs_fold in H; [|reflexivity].
    destruct H as (_ & H1 & H2 & H3 & H4). cbn [lone app] in *. unfold the_attrs.
    destruct a as [m d u df]. cbn [fa_mode fa_decode fa_unwrap fa_default] in *.
    rewrite <- H1, <- H2, <- H3, <- H4. now destruct m, d, u, df.
  - intros [H ->]. apply attrs_emitted in H. destruct (attrs_update l) as [a em] eqn:E.
    cbn [snd] in H. subst em. f_equal.
    unfold attrs_update, attrs_new in E. apply attrs_fold in E; [|reflexivity].
    destruct E as (_ & H1 & H2 & H3 & H4). cbn [lone app] in *. unfold the_attrs.
    destruct a as [m d u df]. cbn [fa_mode fa_decode fa_unwrap fa_default] in *.
    rewrite <- H1, <- H2, <- H3, <- H4. now destruct m, d, u, df.
Qed.

(** ** One attribute *)

Section Attr.
Context {L : Type}.
Variable parse_expr : list token -> option (dval L * list token).
Variable parse_type : list token -> option (unit * list token).
Variable bare : dval L.
Hypothesis expr_stops : stops parse_expr.
Hypothesis type_stops : stops parse_type.
Notation is := (attr_is parse_expr parse_type bare).
Notation read := (attr_parse parse_expr parse_type bare).

Lemma parse_name_moves input name rest : parse_name input = PDone (name, rest) ->
  input = naming name ++ rest /\ (name = None -> ends rest).
Proof.
  unfold parse_name. destruct (at_end input) eqn:E.
  - intros H. injection H as <- <-. split; [reflexivity|]. intros _. now apply at_end_ends.
  - destruct input as [|[| | | |[] [|[k| | | |] [|[|e| | |] [|[| |s| |] [|]]]]] input]; try discriminate.
    destruct (text_eqb_reflect k (str "name")) as [->|_]; [|discriminate].
    destruct (N.eqb e equals) eqn:Q; [|discriminate]. apply N.eqb_eq in Q. subst e.
    intros H. injection H as <- <-. split; [reflexivity|discriminate].
Qed.

Lemma parse_name_reads name rest : ends rest -> parse_name (naming name ++ rest) = PDone (name, rest).
Proof.
  intros E. apply at_end_ends in E. destruct name as [s|]; cbn [naming app]; unfold parse_name.
  - reflexivity.
  - now rewrite E.
Qed.

Section Nested.
Variables (nested : parser (list (attr L))) (n : nat).
Hypothesis nests : forall ts l, tokens_depth ts < n ->
  nested ts = ([], PDone l) <-> listed is ts l.

Local Ltac key k s := destruct (text_eqb_reflect k (str s)) as [->|_].

Lemma attr_moves input em a rest : read nested input = (em, PDone (a, rest)) ->
  exists t used, input = t :: used ++ rest.
Proof.
  destruct input as [|[k| | | |] input]; cbn [attr_parse]; try discriminate.
  intros H. exists (TkIdent k).
  enough (X : exists used, input = used ++ rest) by (destruct X as [used ->]; now exists used).
  revert H.
  repeat match goal with
  | |- (if text_eqb k ?s then _ else _) = _ -> _ => destruct (text_eqb k s)
  | |- ([], PDone (_, _)) = _ -> _ => intros H; injection H as _ _ ->; now exists []
  | |- ([], PFail) = _ -> _ => discriminate
  end.
  - destruct (parse_name input) as [[name r]| |] eqn:N; try discriminate.
    intros H. injection H as _ _ <-. apply parse_name_moves in N. destruct N as [-> _].
    now exists (naming name).
  - destruct (parse_name input) as [[name r]| |] eqn:N; try discriminate.
    intros H. injection H as _ _ <-. apply parse_name_moves in N. destruct N as [-> _].
    now exists (naming name).
  - destruct input as [|[| | | |[] ts] r]; try discriminate.
    destruct (nested ts) as [em' [l| |]]; try discriminate.
    destruct (attrs_update l) as [u em'']. intros H. injection H as _ _ <-.
    now exists [TkGroup Parenthesis ts].
  - destruct input as [|[| | | |[] ts] r]; try discriminate.
    destruct (parse_terminated flatten_item _ ts) as [em' [l| |]]; try discriminate.
    intros H. injection H as _ _ <-. now exists [TkGroup Parenthesis ts].
  - destruct (at_end input); [intros H; injection H as _ _ ->; now exists []|].
    destruct input as [|[|e| | |] ts]; try discriminate.
    destruct (N.eqb e equals); [|discriminate].
    destruct (parse_expr ts) as [[v r]|] eqn:X; [|discriminate].
    intros H. injection H as _ _ <-. apply (sp_front _ expr_stops) in X. destruct X as [used ->].
    now exists (TkPunct e :: used).
  - destruct input as [|[|e| | |] ts]; try discriminate.
    destruct (N.eqb e equals); [|discriminate].
    destruct (parse_type ts) as [[v r]|] eqn:X; [|discriminate].
    intros H. injection H as _ _ <-. apply (sp_front _ type_stops) in X. destruct X as [used ->].
    now exists (TkPunct e :: used).
Qed.

Lemma attr_read input a rest : tokens_depth input <= n -> ends rest ->
  read nested input = ([], PDone (a, rest)) -> exists used, input = used ++ rest /\ is used a.
Proof.
  intros D E. destruct input as [|[k| | | |] input]; cbn [attr_parse]; try discriminate.
  rewrite depth_cons in D.
  Local Ltac lone_word s := intros H; injection H as <- <-; exists [word s]; split; [reflexivity|constructor].
  key k "argument"; [lone_word "argument"|].
  key k "arguments"; [lone_word "arguments"|].
  key k "property".
  { destruct (parse_name input) as [[name r]| |] eqn:N; try discriminate.
    intros H. injection H as <- <-. apply parse_name_moves in N. destruct N as [-> _].
    exists (word "property" :: naming name). split; [reflexivity|constructor]. }
  key k "properties"; [lone_word "properties"|].
  key k "children".
  { destruct (parse_name input) as [[name r]| |] eqn:N; try discriminate.
    intros H. injection H as <- <-. apply parse_name_moves in N. destruct N as [-> _].
    exists (word "children" :: naming name). split; [reflexivity|constructor]. }
  key k "child"; [lone_word "child"|].
  key k "unwrap".
  { destruct input as [|[| | | |[] ts] r]; try discriminate.
    destruct (nested ts) as [em' [l| |]] eqn:N; try discriminate.
    destruct (attrs_update l) as [u em''] eqn:U. intros H. injection H as H <- <-.
    apply app_eq_nil in H. destruct H as [-> ->]. rewrite depth_cons, group_depth in D.
    apply nests in N; [|lia]. apply attrs_update_iff in U. destruct U as [U ->].
    exists [word "unwrap"; TkGroup Parenthesis ts]. split; [reflexivity|]. now constructor. }
  key k "skip"; [lone_word "skip"|].
  key k "str"; [lone_word "str"|].
  key k "bytes"; [lone_word "bytes"|].
  key k "flatten".
  { destruct input as [|[| | | |[] ts] r]; try discriminate.
    destruct (parse_terminated flatten_item _ ts) as [em' [l| |]] eqn:T; try discriminate.
    intros H. injection H as -> <- <-. apply flatten_items_iff in T.
    exists [word "flatten"; TkGroup Parenthesis ts]. split; [reflexivity|].
    apply is_flatten with l; [exact T| |].
    - rewrite existsb_exists. split; [intros (x & I & ->); exact I|]. intros I. now exists true.
    - rewrite existsb_exists. split; [intros (x & I & X); now destruct x|].
      intros I. now exists false. }
  key k "default".
  { destruct (at_end input); [lone_word "default"|].
    destruct input as [|[|e| | |] ts]; try discriminate.
    destruct (N.eqb e equals) eqn:Q; [|discriminate]. apply N.eqb_eq in Q. subst e.
    destruct (parse_expr ts) as [[v r]|] eqn:X; [|discriminate].
    intros H. injection H as <- <-. pose proof (sp_front _ expr_stops _ _ _ X) as [used ->].
    apply (sp_comma _ expr_stops) in X; [|exact E].
    exists (word "default" :: TkPunct 61 :: used). split; [reflexivity|]. now constructor. }
  key k "span"; [lone_word "span"|].
  key k "node_name"; [lone_word "node_name"|].
  key k "type_name"; [lone_word "type_name"|].
  key k "span_type"; [|discriminate].
  destruct input as [|[|e| | |] ts]; try discriminate.
  destruct (N.eqb e equals) eqn:Q; [|discriminate]. apply N.eqb_eq in Q. subst e.
  destruct (parse_type ts) as [[[] r]|] eqn:X; [|discriminate].
  intros H. injection H as <- <-. pose proof (sp_front _ type_stops _ _ _ X) as [used ->].
  apply (sp_comma _ type_stops) in X; [|exact E].
  exists (word "span_type" :: TkPunct 61 :: used). split; [reflexivity|]. now constructor.
Qed.

Local Ltac keys :=
  repeat match goal with
  | |- context [text_eqb (str ?a) (str ?b)] =>
      let v := eval vm_compute in (text_eqb (str a) (str b)) in
      change (text_eqb (str a) (str b)) with v
  end; cbn iota.

Lemma attr_reads used a rest : tokens_depth (used ++ rest) <= n -> ends rest -> is used a ->
  read nested (used ++ rest) = ([], PDone (a, rest)).
Proof.
  intros D E H. destruct H; cbn [app]; unfold word; cbn [attr_parse]; keys; try reflexivity.
  - now rewrite parse_name_reads.
  - now rewrite parse_name_reads.
  - apply flatten_items_iff in H. rewrite H.
    assert (C : existsb (fun c => c) l = c).
    { apply eq_true_iff_eq. rewrite H0, existsb_exists.
      split; [intros (x & I & ->); exact I|]. intros I. now exists true. }
    assert (Q : existsb negb l = p).
    { apply eq_true_iff_eq. rewrite H1, existsb_exists.
      split; [intros (x & I & X); now destruct x|]. intros I. now exists false. }
    now rewrite C, Q.
  - rewrite depth_app, !depth_cons, group_depth in D.
    apply nests in H; [|lia]. rewrite H.
    assert (U : attrs_update l = (the_attrs l, [])) by now apply attrs_update_iff.
    now rewrite U.
  - apply at_end_ends in E. now rewrite E.
  - apply (sp_comma _ expr_stops) with (rest := rest) in H; [|exact E].
    cbn [at_end]. change (N.eqb 61 comma) with false. change (N.eqb 61 equals) with true. cbn iota.
    now rewrite H.
  - apply (sp_comma _ type_stops) with (rest := rest) in H; [|exact E].
    change (N.eqb 61 equals) with true. cbn iota. now rewrite H.
Qed.

Lemma attr_iff input a rest : tokens_depth input <= n -> ends rest ->
  read nested input = ([], PDone (a, rest)) <-> exists used, input = used ++ rest /\ is used a.
Proof.
  intros D E. split; [now apply attr_read|]. intros (used & -> & H). now apply attr_reads.
Qed.

Hypothesis nests_enough : forall ts, tokens_depth ts < n -> snd (nested ts) <> PFuel.

Lemma attr_enough input : tokens_depth input <= n -> snd (read nested input) <> PFuel.
Proof.
  destruct input as [|[k| | | |] input]; cbn [attr_parse]; try discriminate.
  rewrite depth_cons. intros D.
  assert (N : parse_name input <> PFuel).
  { unfold parse_name. destruct (at_end input); [discriminate|].
    destruct input as [|[| | | |[] [|[k'| | | |] [|[|e| | |] [|[| |s| |] [|]]]]] input]; try discriminate.
    destruct (text_eqb k' (str "name") && N.eqb e equals); discriminate. }
  repeat match goal with
  | |- snd (if text_eqb k ?s then _ else _) <> _ => destruct (text_eqb k s)
  | |- snd ([], PDone (_, _)) <> _ => discriminate
  | |- snd ([], PFail) <> _ => discriminate
  end.
  - destruct (parse_name input) as [[name r]| |]; cbn; congruence.
  - destruct (parse_name input) as [[name r]| |]; cbn; congruence.
  - destruct input as [|[| | | |[] ts] r]; try discriminate.
    rewrite depth_cons, group_depth in D. pose proof (nests_enough ts ltac:(lia)) as F.
    destruct (nested ts) as [em' [l| |]]; cbn in F |- *; try congruence.
    destruct (attrs_update l). discriminate.
  - destruct input as [|[| | | |[] ts] r]; try discriminate.
    assert (F : snd (parse_terminated flatten_item (S (List.length ts)) ts) <> PFuel).
    { apply (terminated_enough flatten_item (tokens_depth ts)); try lia.
      - exact flatten_item_moves.
      - intros inp _. apply flatten_item_quiet. }
    destruct (parse_terminated flatten_item _ ts) as [em' [l| |]]; cbn in F |- *; congruence.
  - destruct (at_end input); [discriminate|].
    destruct input as [|[|e| | |] ts]; try discriminate.
    destruct (N.eqb e equals); [|discriminate].
    destruct (parse_expr ts) as [[v r]|]; discriminate.
  - destruct input as [|[|e| | |] ts]; try discriminate.
    destruct (N.eqb e equals); [|discriminate].
    destruct (parse_type ts) as [[v r]|]; discriminate.
Qed.

End Nested.

(** ** Lists of attributes *)

Lemma attrs_iff : forall fuel ts l, tokens_depth ts < fuel ->
  parse_attrs parse_expr parse_type bare fuel ts = ([], PDone l) <-> listed is ts l.
Proof.
  induction fuel as [|fuel IH]; intros ts l D; [lia|]. cbn [parse_attrs].
  apply (terminated_iff _ is fuel); [| |lia|lia].
  - intros input a rest D' E. now apply attr_iff with (n := fuel).
  - intros input em a rest. apply attr_moves.
Qed.

Lemma attrs_enough : forall fuel ts, tokens_depth ts < fuel ->
  snd (parse_attrs parse_expr parse_type bare fuel ts) <> PFuel.
Proof.
  induction fuel as [|fuel IH]; intros ts D; [lia|]. cbn [parse_attrs].
  apply (terminated_enough _ fuel); [| |lia|lia].
  - intros input em a rest. apply attr_moves.
  - intros input D'. now apply attr_enough with (n := fuel).
Qed.

Lemma ours_iff a : at_outer a && is_knuffel a = true <-> ours a.
Proof.
  unfold is_knuffel, ours. rewrite andb_true_iff.
  destruct a as [o lc segs ts]. cbn [at_outer at_leading_colon at_segments].
  destruct lc; [intuition discriminate|].
  destruct segs as [|[s []] [|]]; try (intuition discriminate).
  destruct (text_eqb_reflect s (str "knuffel")) as [->|N]; intuition congruence.
Qed.

(** The fuel that the model gives is enough: a [PFuel] never reads as a syntax error. *)
Lemma args_enough a : snd (parse_args parse_expr parse_type bare a) <> PFuel.
Proof.
  unfold parse_args. destruct (at_tokens a) as [|[| | | |d ts] [|]]; try discriminate.
  apply attrs_enough. lia.
Qed.

Lemma list_iff : forall attrs l,
  parse_attr_list parse_expr parse_type bare attrs = (l, [])
  <-> written parse_expr parse_type bare attrs l.
Proof.
  induction attrs as [|a attrs IH]; intros l; cbn [parse_attr_list].
  - split; [intros H; injection H as <-; constructor|]. intros H. now inversion H.
  - destruct (parse_attr_list parse_expr parse_type bare attrs) as [m em'] eqn:Q.
    pose proof (ours_iff a) as O. destruct (at_outer a && is_knuffel a) eqn:K.
    + assert (Oa : ours a) by now apply O. unfold parse_args.
      split.
      * destruct (at_tokens a) as [|[| | | |d ts] [|]] eqn:T; try discriminate.
        destruct (parse_attrs parse_expr parse_type bare (S (tokens_depth ts)) ts)
          as [em [k| |]] eqn:R; try (intros H; injection H as _ H; now destruct em).
        intros H. injection H as <- H. apply app_eq_nil in H. destruct H as [-> ->].
        apply attrs_iff in R; [|lia]. apply written_ours with d ts; auto. now apply IH.
      * intros H. inversion H as [|a' l' m' N W E1 E2|a' l' d ts k m' O' T R W E1 E2]; subst;
          [contradiction|].
        rewrite T. apply attrs_iff with (fuel := S (tokens_depth ts)) in R; [|lia]. rewrite R.
        apply IH in W. injection W as -> ->. reflexivity.
    + assert (Oa : ~ ours a) by (rewrite <- O; discriminate). rewrite IH. split.
      * intros H. now constructor.
      * intros H. now inversion H.
Qed.

End Attr.
