(** Concrete cases for C61. *)

From Coq Require Import NArith ZArith List Bool String.
From Verif Require Import Chars Ast Errors Chumsky Spans Grammar Conformance Kdl.
From Verif Require Import Decode Scalar Containers DecodeSpec DeriveDef Derive DeriveSpec FieldSpec
  StructSpec HonestProps LexIdent DeriveConformance HandSpec FlattenSpec DeriveSample
  UnwrapSample FlattenSample CalmSpec CalmProps CalmLibrary.
Import ListNotations.
Local Open Scope string_scope.
Local Open Scope list_scope.

Lemma ty_string_calm v : calm (ti_scalar ty_string v).
Proof. apply calm_map, string_calm. Qed.
Lemma ty_opt_string_calm v : calm (ti_scalar ty_opt_string v).
Proof. apply calm_map, option_calm, string_calm. Qed.

Lemma arg1_calm : item_calm arg1_item.
Proof. constructor; [|constructor]. intros _. exact ty_string_calm. Qed.

Lemma ty_arg_calm n : calm (ti_node ty_arg n).
Proof.
  unfold ty_arg. destruct (decode_derive kebab arg1_item) as [d|] eqn:E; cbn [ty_derived ti_node].
  - apply (derive_calm kebab arg1_item d arg1_calm E).
  - exfalso. assert (K : (if decode_derive kebab arg1_item then true else false) = true)
      by (vm_compute; reflexivity).
    rewrite E in K. discriminate.
Qed.

Ltac calm_field := unfold field_calm, F_; cbn; unfold scalar_calm;
  first [exact I
        |intros _; first [exact ty_string_calm|exact ty_opt_string_calm]
        |exact ty_arg_calm
        |right; exact ty_arg_calm
        |right; intros _; exact ty_string_calm
        |left; split; reflexivity
        |discriminate].

Lemma job_calm : item_calm job_item.
Proof. cbn [item_calm job_item struct_item fields_in]. repeat (apply Forall_cons; [calm_field|]). constructor. Qed.

Lemma wrap_calm : item_calm wrap_item.
Proof.
  cbn [item_calm wrap_item struct_item fields_in]. repeat (apply Forall_cons; [calm_field|]). constructor.
Qed.

(** A flattened struct with a [bool], an optional child and an unwrapped one. *)
Definition opts : V := VStruct (str "Opts") (map empty_value opts_fields).

Lemma opts_calm : fields_calm opts_fields.
Proof. repeat (apply Forall_cons; [calm_field|]). constructor. Qed.

Lemma opts_shape : struct_shape opts_fields opts.
Proof.
  intros x I. cbn in I. destruct I as [<-|[<-|[<-|[]]]].
  - exists (VBool false). split; [reflexivity|]. split; [discriminate|]. intros _. now exists false.
  - exists VNone. split; [reflexivity|]. split; [now left|discriminate].
  - exists VNone. split; [reflexivity|]. split; [now left|discriminate].
Qed.

Lemma opts_no_lists : no_optional_lists opts_fields.
Proof. intros x name I. cbn in I. destruct I as [<-|[<-|[<-|[]]]]; discriminate. Qed.

Lemma opts_inserts : exists ic ip,
  dr_insert_child (struct_of "Opts" opts_fields) = Some ic
  /\ dr_insert_property (struct_of "Opts" opts_fields) = Some ip.
Proof.
  assert (K : (if dr_insert_child (struct_of "Opts" opts_fields) then true else false) = true)
    by (vm_compute; reflexivity).
  assert (K' : (if dr_insert_property (struct_of "Opts" opts_fields) then true else false) = true)
    by (vm_compute; reflexivity).
  destruct (dr_insert_child _) as [ic|]; [|discriminate].
  destruct (dr_insert_property _) as [ip|]; [|discriminate]. now exists ic, ip.
Qed.

Lemma opts_names : names_given opts_fields.
Proof. exact (proj1 (named_proper opts_fields eq_refl)). Qed.

Lemma opts_derives :
  decode_derive kebab (struct_item true (str "Opts") [] opts_fields) = Some (struct_of "Opts" opts_fields).
Proof. exact (proj1 (struct_checked _ _ opts_checked)). Qed.

Lemma opts_steady : steady (sf_impl opts_field) (ti_default (sf_impl opts_field)).
Proof.
  destruct opts_inserts as (ic & ip & Ic & Ip).
  unfold steady, opts_field, F_, ty_struct. cbn [sf_impl ty_derived ti_default ti_insert_child ti_insert_property].
  rewrite Ic, Ip.
  exact (struct_steady kebab true (str "Opts") [] opts_fields _ ic ip opts_derives opts_names opts_calm
    opts_no_lists Ic Ip _ _ opts_shape).
Qed.

Definition run_item : src_item span leaf :=
  struct_item true (str "Run") [] (run_before ++ opts_field :: run_after).

Lemma run_derives : decode_derive kebab run_item = Some run_flat.
Proof. exact (proj1 run_flat_derives). Qed.

Lemma run_calm : item_calm run_item.
Proof.
  unfold run_item. cbn [item_calm struct_item fields_in run_before run_after app].
  apply Forall_cons; [calm_field|].
  apply Forall_cons; [split; [now left|exact opts_steady]|].
  repeat (apply Forall_cons; [calm_field|]). constructor.
Qed.

Lemma run_has_children : exists f, dr_children run_flat = Some f
  /\ parse (parse_ast_span run_text) f
     = Value_of (S_ "Run"
         [("main", S_ "Arg1" [("name", s_ "m")]);
          ("opts", S_ "Opts" [("verbose", VBool true); ("target", VSome (S_ "Arg1" [("name", s_ "t")]));
                              ("level", VSome (s_ "high"))]);
          ("points", VList [S_ "Arg1" [("name", s_ "1")]]);
          ("rest", VList [S_ "Arg1" [("name", s_ "x")]])]).
Proof.
  assert (K : match dr_children run_flat with
              | Some f => parse (parse_ast_span run_text) f = Value_of (S_ "Run"
         [("main", S_ "Arg1" [("name", s_ "m")]);
          ("opts", S_ "Opts" [("verbose", VBool true); ("target", VSome (S_ "Arg1" [("name", s_ "t")]));
                              ("level", VSome (s_ "high"))]);
          ("points", VList [S_ "Arg1" [("name", s_ "1")]]);
          ("rest", VList [S_ "Arg1" [("name", s_ "x")]])])
              | None => False end) by (vm_compute; reflexivity).
  destruct (dr_children run_flat) as [f|]; [|contradiction]. exact (ex_intro _ f (conj eq_refl K)).
Qed.

(** Without the condition on the type of a flattened field: a default that cannot be
    inserted into. *)
Definition bad_field : src_field span leaf :=
  F_ "opts" (T_ "Opts") ty_none [AFieldMode (FmFlatten true false)].
Definition bad : derived span leaf := struct_of "Bad" [bad_field].
Lemma bad_panics : decode_derive kebab (struct_item true (str "Bad") [] [bad_field]) = Some bad
  /\ exists f, dr_children bad = Some f /\ parse (parse_ast_span (str "x")) f = Panic_of.
Proof.
  split; [apply derived_by; vm_compute; reflexivity|].
  assert (K : match dr_children bad with
              | Some f => parse (parse_ast_span (str "x")) f = Panic_of
              | None => False end) by (vm_compute; reflexivity).
  destruct (dr_children bad) as [f|]; [|contradiction]. exact (ex_intro _ f (conj eq_refl K)).
Qed.
