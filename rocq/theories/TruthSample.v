(** Errors of the sample types. *)

From Coq Require Import NArith ZArith List Bool String.
From Verif Require Import Chars Ast Errors Chumsky Spans Grammar Conformance Kdl Decode Scalar Containers
  DecodeSpec DeriveDef Derive DeriveSpec FieldSpec StructSpec HandSpec HonestProps UnwrapSpec
  DeriveConformance DeriveSample UnwrapSample TruthSpec.
Import ListNotations.
Local Open Scope string_scope.
Local Open Scope list_scope.

Lemma job_struct : derives_struct kebab true (str "Job") [] job_fields job.
Proof. exact (conj job_derived (conj job_proper job_newtype)). Qed.
Lemma doc_struct : derives_struct kebab true (str "Doc") [] doc_fields doc.
Proof. exact (conj doc_derived (conj doc_proper doc_newtype)). Qed.

(** An unclear job: no property [label]. *)
Lemma job_says : snd (dr_node job (first_node (q "job 'a' y='2' { main 'm'; }")) context_new)
  = DErr (DMissing (Span 0 3) (str "property `label` is required")).
Proof. vm_compute. reflexivity. Qed.

Lemma doc_says : exists f, dr_children doc = Some f
  /\ parse (parse_ast_span (q "flag 1; what; flag; point 'p'")) f
     = Decode_errors
         [DUnexpected (Span 5 6) (str "argument") (str "unexpected argument");
          DUnexpected (Span 8 13) (str "node") (str "unexpected node `what`");
          DUnexpected (Span 14 18) (str "node") (str "duplicate node `flag`, single node expected");
          DMissingNode (str "child node `main` is required")].
Proof.
  assert (K : match dr_children doc with
              | Some f => parse (parse_ast_span (q "flag 1; what; flag; point 'p'")) f
     = Decode_errors
         [DUnexpected (Span 5 6) (str "argument") (str "unexpected argument");
          DUnexpected (Span 8 13) (str "node") (str "unexpected node `what`");
          DUnexpected (Span 14 18) (str "node") (str "duplicate node `flag`, single node expected");
          DMissingNode (str "child node `main` is required")]
              | None => False
              end) by (vm_compute; reflexivity).
  destruct (dr_children doc) as [f|]; [|contradiction]. eauto.
Qed.

Definition deep_field : field span leaf := Field (Named (str "deep")) ty_string.

Lemma deep_within : within appends (f_impl deep_field).
Proof. apply ty_string_within, appends_onward. Qed.

Lemma deep_says :
  snd (node_fn kebab deep_field (Some (inside FmChild None (Some (inside FmArgument None None None)) None))
         (first_node (q "x { }")) context_new)
  = DErr (DMissing (Span 0 5) (str "child node `deep` is required")).
Proof. vm_compute. reflexivity. Qed.
