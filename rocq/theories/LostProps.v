(** Errors are never lost: from the derived decoders to the parse. *)

From Coq Require Import NArith ZArith List Bool String Lia.
From Verif Require Import Chars Ast Errors Chumsky Spans Grammar Conformance Kdl Decode Scalar Containers
  DecodeSpec DecodeProps DeriveDef Derive DeriveSpec FieldSpec StructSpec HandSpec
  HonestProps LibraryProps DeriveConformance DeriveSample.
Import ListNotations.
Local Open Scope list_scope.

Lemma derived_appends Sp L kebab (i : src_item Sp L) d :
  Forall (within appends) (types_in i) -> decode_derive kebab i = Some d ->
  within_derived appends d.
Proof. apply derive_within, appends_onward. Qed.

Lemma library_within Sp (R : context Sp -> context Sp -> Prop) : onward R ->
  (forall t, scalar_within R (string_impl t)) /\ scalar_within R bool_impl
  /\ (forall t, scalar_within R (int_impl t))
  /\ (forall F t (from_str : text -> option F) zero, scalar_within R (float_impl t from_str zero))
  /\ (forall A name (vs : list (text * A)), scalar_within R (scalar_enum_impl name vs))
  /\ scalar_within R literal_impl
  /\ (forall A (i : scalar_impl Sp A), scalar_within R i -> scalar_within R (option_impl i))
  /\ (forall A B (f : A -> B) (i : scalar_impl Sp A),
        scalar_within R i -> scalar_within R (wrapped_impl f i))
  /\ (forall A Q (ds : span_impl Sp Q) (i : scalar_impl Sp A),
        (forall sp c, R c (fst (ds sp c))) -> scalar_within R i ->
        scalar_within R (spanned_impl ds i))
  /\ (forall Q (ds : span_impl Sp Q), (forall sp c, R c (fst (ds sp c))) ->
        scalar_within R (value_impl ds))
  /\ (forall A (d : node_impl Sp A) ns, (forall n, moves R (d n)) -> moves R (vec_children d ns)).
Proof.
  intros O.
  split; [exact (string_within R O)|]. split; [exact (bool_within R O)|].
  split; [exact (int_within R O)|]. split; [intros; apply (float_within R O)|].
  split; [intros; apply (scalar_enum_within R O)|]. split; [exact (literal_within R O)|].
  split; [intros; now apply (option_within R O)|]. split; [intros; now apply (wrapped_within R O)|].
  split; [intros; now apply (spanned_within R O)|]. split; [intros; now apply (value_within R O)|].
  intros; now apply (vec_within R O).
Qed.

Lemma parse_reports Sp L kebab (i : src_item Sp L) d f log ast set_ctx :
  Forall (within (fun c c' => reported log c -> reported log c')) (types_in i) ->
  decode_derive kebab i = Some d -> dr_children d = Some f ->
  reported log (set_ctx context_new) ->
  forall doc, ast = Parsed doc ->
  let c := fst (f doc (set_ctx context_new)) in
  match parse_with_context ast set_ctx f with
  | Value_of _ => log (c_ext c) = []
  | Decode_errors es => incl (log (c_ext c)) es
  | Parse_errors _ => False
  | Panic_of => snd (f doc (set_ctx context_new)) = DPanic
  end.
Proof.
  intros W D F S doc ->. cbn zeta. unfold parse_with_context.
  pose proof (derive_within _ (reported_onward log) kebab i d W D) as Wd.
  pose proof (wd_children _ _ Wd f F doc (set_ctx context_new) S) as R.
  destruct (f doc (set_ctx context_new)) as [c [v|e|]]; cbn [fst snd] in *; [| |reflexivity].
  - unfold has_errors. destruct (c_errors c) as [|e es] eqn:E.
    + unfold reported in R. rewrite E in R. now apply incl_l_nil.
    + unfold into_errors. exact R.
  - unfold into_errors. cbn. now apply incl_appl.
Qed.

Lemma parse_appends Sp L kebab (i : src_item Sp L) d f ast set_ctx :
  Forall (within appends) (types_in i) ->
  decode_derive kebab i = Some d -> dr_children d = Some f ->
  forall doc, ast = Parsed doc ->
  match parse_with_context ast set_ctx f with
  | Value_of _ => c_errors (set_ctx context_new) = []
  | Decode_errors es => exists es', es = c_errors (set_ctx context_new) ++ es'
  | Parse_errors _ => False
  | Panic_of => snd (f doc (set_ctx context_new)) = DPanic
  end.
Proof.
  intros W D F doc ->. unfold parse_with_context.
  pose proof (derive_within _ appends_onward kebab i d W D) as Wd.
  pose proof (wd_children _ _ Wd f F doc (set_ctx context_new)) as R.
  destruct (f doc (set_ctx context_new)) as [c [v|e|]]; cbn [fst snd] in *; [| |reflexivity];
    destruct R as [es E].
  - unfold has_errors. destruct (c_errors c) as [|e es'] eqn:E'.
    + symmetry in E. now apply app_eq_nil in E.
    + exists es. unfold into_errors. congruence.
  - exists (es ++ [e]). unfold into_errors. cbn. rewrite E. now rewrite app_assoc.
Qed.

(** ** A decoder that logs *)

Definition the_log_error : derror span := DMissingNode (str "logged").

(** Extension [7] counts the errors. *)
Definition logged (ext : list (N * N)) : list (derror span) :=
  match ext_get 7 ext with Some n => repeat the_log_error (N.to_nat n) | None => [] end.

Definition log_node : node_impl span V := fun n c =>
  let k := match ext_get 7 (c_ext c) with Some k => k | None => 0%N end in
  (Context (c_errors c ++ [the_log_error]) (ext_insert 7 (k + 1)%N (c_ext c)), DOk VNone).

Definition ty_log : Ty :=
  TyImpl (fun _ => d_panic) (fun _ => inr (SOther 0)) (fun _ => inr (SOther 0))
    log_node (fun _ c => (c, VNone)) VNone (fun s => inl VNone)
    (fun _ _ => d_panic) (fun _ _ _ => d_panic).

Lemma ty_log_within : within (fun c c' => reported logged c -> reported logged c') ty_log.
Proof.
  split; intros; try (intros c H; exact H).
  - intros c H. cbn. unfold reported, logged in *. cbn [c_ext c_errors].
    rewrite ext_get_insert, N.eqb_refl.
    intros e I. apply repeat_spec in I. subst e. apply in_or_app. right. now left.
  - cbn. auto.
Qed.

Definition logged_fields : list (src_field span leaf) :=
  [ F_ "main" (T_ "Log") ty_log [child_]; F_ "points" (T_ "Vec") ty_log [children_named "point"] ].
Definition logged_item : src_item span leaf := struct_item true (str "Logged") [] logged_fields.

Lemma logged_parse : exists d f,
  decode_derive kebab logged_item = Some d /\ dr_children d = Some f
  /\ Forall (within (fun c c' => reported logged c -> reported logged c')) (types_in logged_item)
  /\ parse (parse_ast_span (str "main; point; point")) f
     = Decode_errors [the_log_error; the_log_error; the_log_error].
Proof.
  assert (K : match decode_derive kebab logged_item with
              | Some d => match dr_children d with
                 | Some f => parse (parse_ast_span (str "main; point; point")) f
                     = Decode_errors [the_log_error; the_log_error; the_log_error]
                 | None => False end
              | None => False end) by (vm_compute; reflexivity).
  destruct (decode_derive kebab logged_item) as [d|]; [|contradiction].
  destruct (dr_children d) as [f|] eqn:F; [|contradiction].
  exists d, f. split; [reflexivity|]. split; [exact F|]. split; [|exact K].
  constructor; [exact ty_log_within|]. constructor; [exact ty_log_within|constructor].
Qed.
