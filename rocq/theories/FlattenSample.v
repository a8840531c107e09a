(** Structs that flatten others, and structs with the same fields inlined. *)

From Coq Require Import NArith ZArith List Bool String.
From Verif Require Import Chars Ast Errors Chumsky Spans Grammar Conformance Kdl.
From Verif Require Import Decode Scalar Containers DecodeSpec DeriveDef Derive DeriveSpec FieldSpec
  StructSpec HonestProps LexIdent LibraryProps DeriveConformance HandSpec FlattenSpec DeriveSample
  UnwrapSample.
Import ListNotations.
Local Open Scope string_scope.
Local Open Scope list_scope.

(** A type that is the struct with these fields. *)
Definition struct_of (name : string) (fs : list (src_field span leaf)) : derived span leaf :=
  derive_or (struct_item true (str name) [] fs).
Definition ty_struct (name : string) (fs : list (src_field span leaf)) : Ty :=
  ty_derived (Some (struct_of name fs)) (VStruct (str name) (map empty_value fs)).

Definition struct_check (name : string) (fs : list (src_field span leaf)) : bool :=
  (if decode_derive kebab (struct_item true (str name) [] fs) then true else false) && named_check fs.

Lemma struct_checked name fs : struct_check name fs = true ->
  derives_struct kebab true (str name) [] fs (struct_of name fs).
Proof.
  unfold struct_check. intros H. apply andb_true_iff in H. destruct H as [H K].
  split; [now apply derived_by|]. split; [now apply named_proper|]. intros [E _]. discriminate.
Qed.

Lemma holds_checked name fs fl : struct_check name fs = true -> sf_impl fl = ty_struct name fs ->
  (if dr_insert_child (struct_of name fs) then true else false) = true ->
  (if dr_insert_property (struct_of name fs) then true else false) = true ->
  holds_struct kebab fl (str name) [] fs (struct_of name fs).
Proof.
  intros H E C P. split; [now apply struct_checked|now rewrite E| |]; rewrite E; cbn.
  - now destruct (dr_insert_child (struct_of name fs)).
  - now destruct (dr_insert_property (struct_of name fs)).
Qed.

Lemma ty_struct_within R name fs : onward R -> struct_check name fs = true ->
  Forall (fun g => within R (sf_impl g)) fs -> within R (ty_struct name fs).
Proof.
  intros O H W. apply ty_derived_within; [assumption|]. intros d E. injection E as <-.
  destruct (struct_checked name fs H) as (D & _). eapply (derive_within R O kebab); [|exact D].
  cbn. rewrite Forall_map. exact W.
Qed.

(** Properties. *)
Definition style_fields : list (src_field span leaf) :=
  [ F_ "color" Opt ty_opt_string [property];
    F_ "weight" Opt ty_opt_string [AFieldMode (FmProperty (Some (str "w")))] ].
Definition style_field : src_field span leaf :=
  F_ "style" (T_ "Style") (ty_struct "Style" style_fields) [AFieldMode (FmFlatten false true)].
Definition text_before : list (src_field span leaf) :=
  [ F_ "body" (T_ "String") ty_string [argument]; F_ "id" (T_ "String") ty_string [property] ].
Definition text_after : list (src_field span leaf) :=
  [ F_ "more" (T_ "Map") ty_string [properties]; F_ "spare" Opt ty_arg [child_] ].

Definition text_flat : derived span leaf :=
  struct_of "Text" (text_before ++ style_field :: text_after).
Definition text_inline : derived span leaf :=
  struct_of "Text" (text_before ++ style_fields ++ text_after).

Lemma text_flat_derives :
  derives_struct kebab true (str "Text") [] (text_before ++ style_field :: text_after) text_flat.
Proof. apply struct_checked. vm_compute. reflexivity. Qed.
Lemma text_inline_derives :
  derives_struct kebab true (str "Text") [] (text_before ++ style_fields ++ text_after) text_inline.
Proof. apply struct_checked. vm_compute. reflexivity. Qed.
Lemma style_holds :
  holds_struct kebab style_field (str "Style") [] style_fields (struct_of "Style" style_fields).
Proof. apply holds_checked; [vm_compute|reflexivity|vm_compute|vm_compute]; reflexivity. Qed.
Lemma style_optional : Forall optional_property style_fields.
Proof.
  unfold style_fields. repeat (apply Forall_cons; [split; [eexists; reflexivity|split; reflexivity]|]).
  apply Forall_nil.
Qed.

Definition text_node : snode span :=
  first_node (q "t 'hello' color='red' id='1' other='x' w='9' { spare 's'; }").

(** Children. *)
Definition opts_fields : list (src_field span leaf) :=
  [ F_ "verbose" (T_ "bool") ty_bool [child_];
    F_ "target" Opt ty_arg [child_];
    F_ "level" Opt ty_string [child_; AUnwrap (mode_only FmArgument)] ].
Definition opts_field : src_field span leaf :=
  F_ "opts" (T_ "Opts") (ty_struct "Opts" opts_fields) [AFieldMode (FmFlatten true false)].
Definition run_before : list (src_field span leaf) := [ F_ "main" (T_ "Arg1") ty_arg [child_] ].
Definition run_after : list (src_field span leaf) :=
  [ F_ "points" (T_ "Vec") ty_arg [children_named "point"]; F_ "rest" (T_ "Vec") ty_arg [children_] ].

Definition run_flat : derived span leaf := struct_of "Run" (run_before ++ opts_field :: run_after).
Definition run_inline : derived span leaf := struct_of "Run" (run_before ++ opts_fields ++ run_after).

Lemma run_flat_derives :
  derives_struct kebab true (str "Run") [] (run_before ++ opts_field :: run_after) run_flat.
Proof. apply struct_checked. vm_compute. reflexivity. Qed.
Lemma run_inline_derives :
  derives_struct kebab true (str "Run") [] (run_before ++ opts_fields ++ run_after) run_inline.
Proof. apply struct_checked. vm_compute. reflexivity. Qed.
Lemma opts_checked : struct_check "Opts" opts_fields = true.
Proof. vm_compute. reflexivity. Qed.
Lemma opts_holds :
  holds_struct kebab opts_field (str "Opts") [] opts_fields (struct_of "Opts" opts_fields).
Proof. apply holds_checked; [vm_compute|reflexivity|vm_compute|vm_compute]; reflexivity. Qed.
Lemma opts_optional : Forall optional_child opts_fields.
Proof.
  unfold opts_fields.
  repeat (apply Forall_cons; [split; [reflexivity|first [left; split; reflexivity|right; split; reflexivity]]|]).
  apply Forall_nil.
Qed.
Lemma run_honest :
  Forall (fun g => within appends (sf_impl g)) (run_before ++ opts_field :: opts_fields ++ run_after).
Proof.
  pose proof (@appends_onward span) as O. pose proof (ty_string_within _ O).
  pose proof (ty_bool_within _ O). pose proof (ty_arg_within _ O).
  assert (H2 : Forall (fun g => within appends (sf_impl g)) opts_fields).
  { unfold opts_fields, F_. repeat (constructor; [cbn [sf_impl]; auto|]). constructor. }
  rewrite Forall_app. split; [|constructor; [|apply Forall_app; split]].
  - unfold run_before, F_. repeat (constructor; [cbn [sf_impl]; auto|]). constructor.
  - unfold opts_field, F_. cbn [sf_impl]. exact (ty_struct_within _ _ _ O opts_checked H2).
  - exact H2.
  - unfold run_after, F_. repeat (constructor; [cbn [sf_impl]; auto|]). constructor.
Qed.

Definition run_text : text := q "main 'm'; verbose; other 'x'; target 't'; point '1'; level 'high'".
Definition run_node : snode span :=
  first_node (q "run { main 'm'; verbose; other 'x'; target 't'; point '1'; level 'high'; }").
(** The child [target] twice. *)
Definition twice_node : snode span := first_node (q "run { main 'm'; target 't'; target 'u'; }").

(** A default in the flattened struct. *)
Definition dflt_fields : list (src_field span leaf) :=
  [ F_ "color" Opt ty_opt_string [property; ADefault (VSome (s_ "red"))] ].
Definition dflt_field : src_field span leaf :=
  F_ "style" (T_ "Style") (ty_struct "Style" dflt_fields) [AFieldMode (FmFlatten false true)].
Definition dflt_flat : derived span leaf := struct_of "Text" [dflt_field].
Definition dflt_inline : derived span leaf := struct_of "Text" dflt_fields.

Lemma dflt_flat_derives : derives_struct kebab true (str "Text") [] ([] ++ dflt_field :: []) dflt_flat.
Proof. apply struct_checked. vm_compute. reflexivity. Qed.
Lemma dflt_inline_derives :
  derives_struct kebab true (str "Text") [] ([] ++ dflt_fields ++ []) dflt_inline.
Proof. apply struct_checked. vm_compute. reflexivity. Qed.
Lemma dflt_holds :
  holds_struct kebab dflt_field (str "Style") [] dflt_fields (struct_of "Style" dflt_fields).
Proof. apply holds_checked; [vm_compute|reflexivity|vm_compute|vm_compute]; reflexivity. Qed.

Definition plain_node : snode span := first_node (q "t").
Definition dflt_flat_value : V := S_ "Text" [("style", S_ "Style" [("color", VNone)])].
Definition dflt_inline_value : V := S_ "Text" [("color", VSome (s_ "red"))].
Lemma dflt_flat_decoded : dr_node dflt_flat plain_node context_new = (context_new, DOk dflt_flat_value).
Proof. vm_compute. reflexivity. Qed.
Lemma dflt_inline_decoded :
  dr_node dflt_inline plain_node context_new = (context_new, DOk dflt_inline_value).
Proof. vm_compute. reflexivity. Qed.

Lemma dflt_differ : ~ spliced (str "Style") dflt_field dflt_flat_value dflt_inline_value.
Proof.
  intros (id & b & w & a & H & H'). unfold dflt_flat_value, S_ in H. injection H as <- H.
  destruct b as [|x b].
  - cbn [app] in H. injection H as H1 H2. subst w a. discriminate.
  - cbn [app] in H. injection H as H1 H2. now destruct b.
Qed.

Lemma flatten_default_refuted : exists kebab ident inner cont cont' icont pre post fl gs
    (d d' di : derived span leaf) n,
  derives_struct kebab true ident cont (pre ++ fl :: post) d
  /\ derives_struct kebab true ident cont' (pre ++ gs ++ post) d'
  /\ holds_struct kebab fl inner icont gs di
  /\ mode_of (0, fl) = Some (FmFlatten false true)
  /\ Forall (fun g => (exists name, mode_of (0, g) = Some (FmProperty name))
                      /\ is_option (sf_type g) = true) gs
  /\ ~ same_outcome (spliced inner fl) (dr_node d n context_new) (dr_node d' n context_new).
Proof.
  exists kebab, (str "Text"), (str "Style"), [], [], [], [], [], dflt_field, dflt_fields,
    dflt_flat, dflt_inline, (struct_of "Style" dflt_fields), plain_node.
  split; [exact dflt_flat_derives|]. split; [exact dflt_inline_derives|].
  split; [exact dflt_holds|]. split; [reflexivity|]. split.
  - unfold dflt_fields. repeat (apply Forall_cons; [split; [eexists; reflexivity|reflexivity]|]).
    apply Forall_nil.
  - rewrite dflt_flat_decoded, dflt_inline_decoded. intros [_ H]. exact (dflt_differ H).
Qed.
