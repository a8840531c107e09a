(** Errors of some texts. *)

From Coq Require Import NArith List Bool String.
From Verif Require Import Chars Ast Errors Chumsky Spans Grammar Conformance Decode ErrorText Report ReportSpec
  DeriveDef Derive DeriveSpec AlikeSpec DecodeSpec DeriveConformance DeriveSample AlikeSample.
Import ListNotations.
Local Open Scope list_scope.

(** A text that is no document, of characters of one, two and three bytes. *)
Definition bad_text : text := str "a " ++ [0xE9%N] ++ str " {" ++ [0x20AC%N] ++ str " r#""x".

Lemma bad_answer : exists r1 r2,
  parse_ast_bytes (str "a.kdl") bad_text = Bad (Error (str "a.kdl") bad_text [r1; r2])
  /\ r_labels r1 = [(str "unexpected identifier", SourceSpan 2 2)]
  /\ r_message r1 = str "identifiers cannot be used as arguments"
  /\ map snd (r_labels r2) = [SourceSpan 12 1].
Proof.
  let r := eval vm_compute in (parse_ast_bytes (str "a.kdl") bad_text) in
  match r with Bad (Error _ _ [?a; ?b]) => exists a, b end.
  vm_compute. repeat split; reflexivity.
Qed.

(** A document that does not fit: an unexpected node, an unexpected argument, and a node
    that is missing and has no place. *)
Definition misfit_text : text := str "what """ ++ [0xE9%N] ++ str """; flag 2".

Lemma misfit_read : exists d, parse_ast_span misfit_text = Parsed d.
Proof. eexists. vm_compute. reflexivity. Qed.

Definition reports_of {A} (a : answer A) : list (text * list (text * source_span)) :=
  match a with Bad e => map (fun r => (r_message r, r_labels r)) (e_related e) | _ => [] end.

Lemma misfit_answer : exists f e, dr_children doc = Some f
  /\ parse_text (fun _ => []) (str "b.kdl") misfit_text (fun c => c) f = Bad e
  /\ map (fun r => (r_message r, r_labels r)) (e_related e)
     = [ (str "unexpected node `what`", [(str "unexpected node", SourceSpan 0 10)]);
         (str "unexpected argument", [(str "unexpected argument", SourceSpan 16 1)]);
         (str "child node `main` is required", []) ].
Proof.
  assert (K : match dr_children doc with
              | Some f =>
                  reports_of (parse_text (fun _ => []) (str "b.kdl") misfit_text (fun c => c) f)
                  = [ (str "unexpected node `what`", [(str "unexpected node", SourceSpan 0 10)]);
                      (str "unexpected argument", [(str "unexpected argument", SourceSpan 16 1)]);
                      (str "child node `main` is required", []) ]
              | None => False
              end) by (vm_compute; reflexivity).
  destruct (dr_children doc) as [f|]; [|contradiction]. exists f. revert K.
  generalize (parse_text (fun _ => []) (str "b.kdl") misfit_text (fun c => c) f). intros [v|e|] K;
    try discriminate K. exists e. auto.
Qed.

Definition list_misfit : text := q "title 'T'; other 'a' tag='x'; other 'b'".

Lemma list_answer : exists e,
  parse_text (fun _ => []) (str "c.kdl") list_misfit (fun c => c) (@list_children span) = Bad e
  /\ List.length (e_related e) = 2.
Proof.
  assert (K : List.length (reports_of
    (parse_text (fun _ => []) (str "c.kdl") list_misfit (fun c => c) (@list_children span))) = 2)
    by (vm_compute; reflexivity).
  revert K. generalize (parse_text (fun _ => []) (str "c.kdl") list_misfit (fun c => c) (@list_children span)).
  intros [v|e|] K; try discriminate K. exists e. split; [reflexivity|].
  unfold reports_of in K. rewrite map_length in K. exact K.
Qed.
