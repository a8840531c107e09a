(** A struct with a field of every kind, and a node for it: the concrete case for the
    theorems about derived structs. *)

From Coq Require Import NArith ZArith List Bool String.
From Verif Require Import Chars Ast Errors Chumsky Spans Grammar Conformance Kdl.
From Verif Require Import Decode Scalar Containers DecodeSpec DeriveDef Derive DeriveSpec FieldSpec
  StructSpec HonestProps LexIdent LibraryProps DeriveConformance HandSpec.
Import ListNotations.
Local Open Scope string_scope.
Local Open Scope list_scope.

Definition arg1_item : src_item span leaf :=
  SrcStruct (str "Arg1") [] (FNamed [F_ "name" (T_ "String") ty_string [argument]]).
Definition ty_arg : Ty := ty_derived (decode_derive kebab arg1_item) VNone.

Definition job_fields : list (src_field span leaf) :=
  [ F_ "span" (T_ "Span") ty_span [AFieldMode FmSpan];
    F_ "kind" Opt (ty_from_str (fun t => inl (v_text t))) [AFieldMode FmTypeName];
    F_ "own_name" (T_ "String") (ty_from_str (fun t => inl (v_text t))) [AFieldMode FmNodeName];
    F_ "first" (T_ "String") ty_string [argument];
    F_ "second" Opt ty_opt_string [argument];
    F_ "rest" (T_ "Vec") ty_string [arguments];
    F_ "label" (T_ "String") ty_string [property];
    F_ "mode" (T_ "String") ty_string [property; ADefault (s_ "fast")];
    F_ "note" Opt ty_opt_string [property];
    F_ "others" (T_ "Map") ty_string [properties];
    F_ "flag" (T_ "bool") ty_bool [child_];
    F_ "main" (T_ "Arg1") ty_arg [child_];
    F_ "spare" Opt ty_arg [child_];
    F_ "points" (T_ "Vec") ty_arg [children_named "point"];
    F_ "nodes" (T_ "Vec") ty_arg [children_];
    F_ "extra" (T_ "String") ty_string [] ].

Definition job_item : src_item span leaf := struct_item true (str "Job") [] job_fields.

(** The derive accepts it; the first branch is not taken. *)
Definition job : derived span leaf :=
  match decode_derive kebab job_item with
  | Some d => d
  | None => Derived (fun _ => d_panic) None None None
  end.

Lemma job_derived : decode_derive kebab job_item = Some job.
Proof.
  unfold job. destruct (decode_derive kebab job_item) eqn:E; [reflexivity|]. exfalso.
  assert (K : (if decode_derive kebab job_item then true else false) = true)
    by (vm_compute; reflexivity).
  rewrite E in K. discriminate.
Qed.

Definition job_text : text :=
  q "(t)job 'a' 'b' 'c' 'd' label='x' z='1' y='2' { flag; main 'm'; point '1'; other 'q'; point '2'; }".

(** The first node of a document. *)
Definition first_node (t : text) : snode span :=
  match parse_ast_span t with
  | Parsed (n :: _) => n
  | _ => Spanned (Span 0 0) (Node None (Spanned (Span 0 0) []) [] [] None)
  end.

Definition job_node : snode span := first_node job_text.

Definition value_from (r : context span * dout span V) : V :=
  match snd r with DOk v => v | _ => VNone end.

Definition job_value : V := value_from (dr_node job job_node context_new).

Lemma job_decoded : dr_node job job_node context_new = (context_new, DOk job_value).
Proof. vm_compute. reflexivity. Qed.

(** Different texts. *)
Fixpoint distinct (l : list text) : bool :=
  match l with
  | [] => true
  | x :: r => negb (existsb (text_eqb x) r) && distinct r
  end.

Lemma distinct_nodup l : distinct l = true -> NoDup l.
Proof.
  induction l as [|x l IH]; cbn; intros H; constructor; apply andb_true_iff in H;
    destruct H as [H1 H2]; [|auto].
  intros I. apply negb_true_iff in H1. rewrite <- not_true_iff_false in H1. apply H1.
  apply existsb_exists. exists x. split; [exact I|]. now apply text_eqb_spec.
Qed.

Lemma forallb_Forall {A} (f : A -> bool) (P : A -> Prop) l :
  (forall x, f x = true -> P x) -> forallb f l = true -> Forall P l.
Proof. intros H K. rewrite forallb_forall in K. apply Forall_forall. auto. Qed.

(** Checks that compute. *)
Definition named_check (fs : list (src_field span leaf)) : bool :=
  forallb (fun f => match sf_name f with Some _ => true | None => false end) fs
  && distinct (map (fun f => match sf_name f with Some t => t | None => [] end) fs)
  && forallb (fun x => match mode_of x with
                       | Some (FmFlatten a b) => xorb a b
                       | _ => true
                       end) (numbered fs).

Lemma named_proper fs : named_check fs = true -> proper true fs.
Proof.
  unfold named_check. rewrite !andb_true_iff. intros ((A & B) & C).
  split; [split|].
  - revert A. apply forallb_Forall. intros f. now destruct (sf_name f).
  - apply distinct_nodup in B. apply (NoDup_map_inv (fun o : option text =>
      match o with Some t => t | None => [] end)). now rewrite map_map.
  - revert C. apply forallb_Forall. intros x. unfold one_way.
    destruct (mode_of x) as [[]|]; try exact (fun _ => I). now destruct child, property.
Qed.

Definition plain_check (fs : list (src_field span leaf)) : bool :=
  distinct (map pr_name (the_properties kebab fs))
  && forallb (fun p => negb (pr_flatten p)) (the_properties kebab fs)
  && distinct (map ch_name (the_children kebab fs))
  && forallb (fun d => match ch_mode d with CmFlatten => false | _ => true end)
       (the_children kebab fs).

Lemma plain_checked fs : plain_check fs = true -> plain_fields kebab fs.
Proof.
  unfold plain_check. rewrite !andb_true_iff. intros (((A & B) & C) & D).
  split; split.
  - now apply distinct_nodup.
  - revert B. apply forallb_Forall. intros p. now destruct (pr_flatten p).
  - now apply distinct_nodup.
  - revert D. apply forallb_Forall. intros p. now destruct (ch_mode p).
Qed.

Lemma job_proper : proper true job_fields.
Proof. apply named_proper. vm_compute. reflexivity. Qed.

Lemma job_newtype : ~ newtype true job_fields.
Proof. intros [H _]. discriminate. Qed.

Lemma job_plain : plain_fields kebab job_fields.
Proof. apply plain_checked. vm_compute. reflexivity. Qed.

Lemma job_increasing : increasing (n_properties (s_value job_node)).
Proof. vm_compute. repeat constructor. all: intros kv I; cbn in I; intuition subst; reflexivity. Qed.

(** The types of the fields only add errors to the context. *)
Section Within.
Context (R : context span -> context span -> Prop) (O : onward R).

Lemma panic_moves {A} : moves R (d_panic (Sp := span) (A := A)).
Proof. intros c. apply (on_refl _ O). Qed.

Lemma ty_scalar_within {A} (i : scalar_impl span A) f dflt :
  scalar_within R i -> within R (ty_scalar i f dflt).
Proof.
  intros W. split; intros; try apply panic_moves; try apply (on_refl _ O).
  apply (adds_map R O), (sw_decode _ _ W).
Qed.

Lemma ty_from_str_within p : within R (ty_from_str p).
Proof. split; intros; try apply panic_moves; apply (on_refl _ O). Qed.

Lemma ty_span_within : within R ty_span.
Proof. split; intros; try apply panic_moves; apply (on_refl _ O). Qed.

Lemma ty_derived_within o dflt :
  (forall d, o = Some d -> within_derived R d) -> within R (ty_derived o dflt).
Proof.
  intros W. destruct o as [d|]; cbn [ty_derived].
  - specialize (W d eq_refl). split; intros; try apply panic_moves; try apply (on_refl _ O).
    + apply (wd_node _ _ W).
    + cbn [ti_insert_child]. destruct (dr_insert_child d) eqn:E; [|apply panic_moves].
      exact (wd_insert_child _ _ W _ E _ _).
    + cbn [ti_insert_property]. destruct (dr_insert_property d) eqn:E; [|apply panic_moves].
      exact (wd_insert_property _ _ W _ E _ _ _).
  - split; intros; try apply panic_moves; apply (on_refl _ O).
Qed.

Lemma ty_string_within : within R ty_string.
Proof. apply ty_scalar_within, (string_within R O). Qed.
Lemma ty_opt_string_within : within R ty_opt_string.
Proof. apply ty_scalar_within, (option_within R O), (string_within R O). Qed.
Lemma ty_bool_within : within R ty_bool.
Proof. apply ty_scalar_within, (bool_within R O). Qed.

Lemma ty_arg_within : within R ty_arg.
Proof.
  apply ty_derived_within. intros d E. apply (derive_within R O kebab arg1_item d); [|exact E].
  constructor; [apply ty_string_within|constructor].
Qed.

Lemma job_within : Forall (fun f => within R (sf_impl f)) job_fields.
Proof.
  pose proof ty_string_within. pose proof ty_opt_string_within. pose proof ty_bool_within.
  pose proof ty_arg_within. pose proof ty_span_within. pose proof ty_from_str_within.
  unfold job_fields, F_. repeat (constructor; [cbn [sf_impl]; auto|]). constructor.
Qed.

End Within.

Lemma job_honest : Forall (fun f => within appends (sf_impl f)) job_fields.
Proof. exact (job_within appends appends_onward). Qed.

(** ** A type for documents *)

Definition doc_fields : list (src_field span leaf) :=
  [ F_ "flag" (T_ "bool") ty_bool [child_];
    F_ "main" (T_ "Arg1") ty_arg [child_];
    F_ "points" (T_ "Vec") ty_arg [children_named "point"] ].

Definition doc_item : src_item span leaf := struct_item true (str "Doc") [] doc_fields.

Definition doc : derived span leaf :=
  match decode_derive kebab doc_item with
  | Some d => d
  | None => Derived (fun _ => d_panic) None None None
  end.

Lemma doc_derived : decode_derive kebab doc_item = Some doc.
Proof.
  unfold doc. destruct (decode_derive kebab doc_item) eqn:E; [reflexivity|]. exfalso.
  assert (K : (if decode_derive kebab doc_item then true else false) = true)
    by (vm_compute; reflexivity).
  rewrite E in K. discriminate.
Qed.

Lemma doc_proper : proper true doc_fields.
Proof. apply named_proper. vm_compute. reflexivity. Qed.
Lemma doc_newtype : ~ newtype true doc_fields.
Proof. intros [H _]. discriminate. Qed.
Lemma doc_plain : plain_fields kebab doc_fields.
Proof. apply plain_checked. vm_compute. reflexivity. Qed.
Lemma doc_within R : onward R -> Forall (fun f => within R (sf_impl f)) doc_fields.
Proof.
  intros O. pose proof (ty_bool_within R O). pose proof (ty_arg_within R O).
  unfold doc_fields, F_. repeat (constructor; [cbn [sf_impl]; auto|]). constructor.
Qed.

Definition nodes_of (t : text) : list (snode span) :=
  match parse_ast_span t with Parsed d => d | _ => [] end.

Definition doc_nodes : list (snode span) := nodes_of (q "main 'm'; what 'q'; point '2'").

Definition doc_result : context span * dout span V :=
  match dr_children doc with
  | Some f => f doc_nodes context_new
  | None => (context_new, DPanic)
  end.

Lemma doc_decoded : exists f, dr_children doc = Some f
  /\ f doc_nodes context_new = (fst doc_result, DOk (value_from doc_result)).
Proof.
  assert (K : match dr_children doc with
              | Some f => f doc_nodes context_new = (fst doc_result, DOk (value_from doc_result))
              | None => False
              end) by (vm_compute; reflexivity).
  destruct (dr_children doc) as [f|]; [|contradiction]. exists f. auto.
Qed.

Lemma doc_parsed : exists f v, dr_children doc = Some f
  /\ parse (parse_ast_span (q "main 'm'; point '2'; flag")) f = Value_of v.
Proof.
  assert (K : match dr_children doc with
              | Some f => match parse (parse_ast_span (q "main 'm'; point '2'; flag")) f with
                          | Value_of _ => True
                          | _ => False
                          end
              | None => False
              end) by (vm_compute; exact I).
  destruct (dr_children doc) as [f|]; [|contradiction]. exists f.
  destruct (parse _ f) as [v| | |]; try contradiction. exists v. auto.
Qed.

(** ** A flag with a default *)

Definition flag_fields : list (src_field span leaf) :=
  [ F_ "flag" (T_ "bool") ty_bool [child_; ADefault (VBool true)] ].
Definition flag_item : src_item span leaf := struct_item true (str "Flag") [] flag_fields.
Definition flag : derived span leaf :=
  match decode_derive kebab flag_item with
  | Some d => d
  | None => Derived (fun _ => d_panic) None None None
  end.
Lemma flag_derived : decode_derive kebab flag_item = Some flag.
Proof.
  unfold flag. destruct (decode_derive kebab flag_item) eqn:E; [reflexivity|]. exfalso.
  assert (K : (if decode_derive kebab flag_item then true else false) = true)
    by (vm_compute; reflexivity).
  rewrite E in K. discriminate.
Qed.
Lemma flag_proper : proper true flag_fields.
Proof. apply named_proper. vm_compute. reflexivity. Qed.
Lemma flag_newtype : ~ newtype true flag_fields.
Proof. intros [H _]. discriminate. Qed.
Lemma flag_plain : plain_fields kebab flag_fields.
Proof. apply plain_checked. vm_compute. reflexivity. Qed.

Lemma flag_default_ignored :
  exists (fs : list (src_field span leaf)) d h n v,
    derives_struct kebab true (str "Flag") [] fs d /\ plain_fields kebab fs
    /\ In h (the_children kebab fs) /\ ch_default h = Some (VBool true)
    /\ named_nodes (ch_name h) (node_children (s_value n)) = []
    /\ dr_node d n context_new = (context_new, DOk v) /\ holds v (ch_field h) (VBool false).
Proof.
  exists flag_fields, flag, (hd (Child (Field (Named []) ty_none) [] false CmBool None None)
    (the_children kebab flag_fields)), (first_node (str "node")),
    (value_from (dr_node flag (first_node (str "node")) context_new)).
  split; [exact (conj flag_derived (conj flag_proper flag_newtype))|].
  split; [exact flag_plain|].
  split; [left; reflexivity|].
  split; [vm_compute; reflexivity|]. split; [vm_compute; reflexivity|].
  split; vm_compute; reflexivity.
Qed.
