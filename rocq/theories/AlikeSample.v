(** Concrete cases for C67: an item for any type of spans, with a field that holds one. *)

From Coq Require Import NArith ZArith List Bool String.
From Verif Require Import Chars Ast Errors Chumsky Spans Grammar Conformance Kdl KdlText Layout Observe
  Decode Scalar Containers DeriveDef Derive AlikeSpec AlikeProps AlikeDerive AlikeLib AlikeParse
  DeriveConformance Sample.
Import ListNotations.
Local Open Scope string_scope.
Local Open Scope list_scope.

(** A text or a span. *)
Inductive spot (Sp : Type) := SpotText (t : text) | SpotSpan (s : Sp).
Arguments SpotText {Sp}.
Arguments SpotSpan {Sp}.

Inductive spot_alike {Sp1 Sp2} (R : Sp1 -> Sp2 -> Prop) : spot Sp1 -> spot Sp2 -> Prop :=
| SpA_text t : spot_alike R (SpotText t) (SpotText t)
| SpA_span s1 s2 : R s1 s2 -> spot_alike R (SpotSpan s1) (SpotSpan s2).

Section Items.
Context {Sp : Type}.

Definition spot_type (ti : value Sp -> dec Sp (dval (spot Sp))) (nd : node_impl Sp (dval (spot Sp)))
  : tyimpl Sp (spot Sp) :=
  TyImpl ti (fun t => inl (VLeaf (SpotText t))) (fun _ => inr (SOther 0)) nd
    (fun sp c => (c, VLeaf (SpotSpan sp))) VNone (fun s => inl (VLeaf (SpotText s)))
    (fun _ _ => d_panic) (fun _ _ _ => d_panic).

Definition spot_text : tyimpl Sp (spot Sp) :=
  spot_type (fun v => d_map (fun t => VLeaf (SpotText t)) (sc_decode (string_impl TString) v))
    (fun _ => d_panic).

Definition spot_field (n : string) (t : rust_type) i a : src_field Sp (spot Sp) :=
  SrcField (Some (str n)) t i a.

(** #[derive(Decode)] struct Entry { #[span] at, #[argument] name: String, #[property] tag: String } *)
Definition entry_item : src_item Sp (spot Sp) :=
  SrcStruct (str "Entry") [] (FNamed
    [ spot_field "at" (T_ "Span") spot_text [AFieldMode FmSpan];
      spot_field "name" (T_ "String") spot_text [AFieldMode FmArgument];
      spot_field "tag" (T_ "String") spot_text [AFieldMode (FmProperty None); ADefault (VLeaf (SpotText (str "-")))] ]).

Definition entry_type : tyimpl Sp (spot Sp) :=
  spot_type (fun _ => d_panic)
    (match decode_derive kebab entry_item with Some d => dr_node d | None => fun _ => d_panic end).

(** #[derive(Decode)] struct List { #[children(name="entry")] entries: Vec<Entry>,
    #[child, unwrap(argument)] title: String } *)
Definition list_item : src_item Sp (spot Sp) :=
  SrcStruct (str "List") [] (FNamed
    [ spot_field "entries" (T_ "Vec") entry_type [AFieldMode (FmChildren (Some (str "entry")))];
      spot_field "title" (T_ "String") spot_text
        [AFieldMode FmChild; AUnwrap (FieldAttrs (Some FmArgument) None None None)] ]).

Definition list_children : children_impl Sp (dval (spot Sp)) :=
  match decode_derive kebab list_item with
  | Some d => match dr_children d with Some g => g | None => fun _ => d_panic end
  | None => fun _ => d_panic
  end.
End Items.

Section Alike.
Context {Sp1 Sp2 : Type}.
Variable R : Sp1 -> Sp2 -> Prop.

Lemma spot_type_alike t1 t2 n1 n2 :
  (forall v1 v2, value_alike R v1 v2 -> dec_alike R (dval_alike (spot_alike R)) (t1 v1) (t2 v2)) ->
  node_impl_alike R (dval_alike (spot_alike R)) n1 n2 ->
  type_alike R (spot_alike R) (spot_type t1 n1) (spot_type t2 n2).
Proof.
  intros T N. split; cbn; intros; try apply a_panic; try (repeat constructor; assumption); auto.
Qed.

Lemma spot_text_alike : type_alike R (spot_alike R) spot_text spot_text.
Proof.
  apply spot_type_alike; [|intros n1 n2 N; apply a_panic]. intros v1 v2 V.
  eapply a_map; [apply string_alike, V|]. intros a b ->. repeat constructor.
Qed.

Lemma entry_item_alike : item_alike R (spot_alike R) entry_item entry_item.
Proof.
  constructor; [constructor|]. constructor. unfold spot_field.
  repeat (apply Forall2_cons; [constructor; [exact spot_text_alike|repeat constructor]|]). constructor.
Qed.

Lemma entry_type_alike : type_alike R (spot_alike R) entry_type entry_type.
Proof.
  apply spot_type_alike; [intros; apply a_panic|].
  pose proof (derive_alike R (spot_alike R) kebab _ _ entry_item_alike) as K.
  revert K. generalize (decode_derive kebab (@entry_item Sp1)), (decode_derive kebab (@entry_item Sp2)).
  intros o1 o2 K. destruct K as [|d1 d2 [K _ _ _]]; [intros n1 n2 N; apply a_panic|exact K].
Qed.

Lemma list_item_alike : item_alike R (spot_alike R) list_item list_item.
Proof.
  constructor; [constructor|]. constructor. unfold spot_field.
  apply Forall2_cons; [constructor; [exact entry_type_alike|repeat constructor]|].
  apply Forall2_cons; [constructor; [exact spot_text_alike|repeat constructor]|]. constructor.
Qed.

Lemma list_children_alike :
  children_impl_alike R (dval_alike (spot_alike R)) list_children list_children.
Proof.
  unfold list_children. pose proof (derive_alike R (spot_alike R) kebab _ _ list_item_alike) as K.
  revert K. generalize (decode_derive kebab (@list_item Sp1)), (decode_derive kebab (@list_item Sp2)).
  intros o1 o2 K. destruct K as [|d1 d2 [_ K _ _]]; [intros n1 n2 N; apply a_panic|].
  destruct K as [|g1 g2 K]; [intros n1 n2 N; apply a_panic|exact K].
Qed.
End Alike.

Definition list_text : text := q "title 'T'; entry 'a' tag='x'; entry 'b'".
(** The same document, laid out in another way. *)
Definition list_text2 : text :=
  q "/* list */ title 'T' // heading" ++ [0x0A%N] ++ q "entry tag='x' 'a' ; entry 'b'".

Lemma list_read : read_alike list_text list_text2.
Proof.
  eexists. eexists. split; [vm_compute; reflexivity|]. split; [vm_compute; reflexivity|].
  vm_compute. reflexivity.
Qed.

Definition list_value {Sp} (s1 s2 : Sp) : dval (spot Sp) :=
  let T x := VLeaf (SpotText (str x)) in
  let E s n t := VStruct (str "Entry")
    [(Named (str "at"), VLeaf (SpotSpan s)); (Named (str "name"), T n); (Named (str "tag"), T t)] in
  VStruct (str "List")
    [(Named (str "entries"), VList [E s1 "a" "x"; E s2 "b" "-"]); (Named (str "title"), T "T")].

Lemma list_first : parse (parse_ast_span list_text) list_children
  = Value_of (list_value (Span 11 29) (Span 30 39)).
Proof. vm_compute. reflexivity. Qed.
Lemma list_second : exists s1 s2, s1 <> Span 11 29 /\
  parse (parse_ast_span list_text2) list_children = Value_of (list_value s1 s2).
Proof. eexists. eexists. split; [|vm_compute; reflexivity]. discriminate. Qed.
Lemma list_lines : exists s1 s2, linespan_to_span s1 = Span 11 29 /\ linespan_to_span s2 = Span 30 39 /\
  parse (parse_ast_linespan (fun _ => Some 1) list_text) list_children = Value_of (list_value s1 s2).
Proof.
  eexists. eexists. split; [|split; [|vm_compute; reflexivity]]; reflexivity.
Qed.

(** ** An item that keeps no spans *)

Inductive plain := PlText (t : text) | PlNum (z : Z) | PlLit (l : literal).

Definition plain_type (ti : value span -> dec span (dval plain)) (nd : node_impl span (dval plain))
  : tyimpl span plain :=
  TyImpl ti (fun t => inl (VLeaf (PlText t))) (fun _ => inr (SOther 0)) nd
    (fun sp c => (c, VNone)) VNone (fun s => inl (VLeaf (PlText s)))
    (fun _ _ => d_panic) (fun _ _ _ => d_panic).

Definition plain_num : tyimpl span plain :=
  plain_type (fun v => d_map (fun z => VLeaf (PlNum z)) (sc_decode (int_impl TU64) v)) (fun _ => d_panic).
Definition plain_lit : tyimpl span plain :=
  plain_type (fun v => d_map (fun l => VLeaf (PlLit l)) (sc_decode literal_impl v)) (fun _ => d_panic).

(** #[derive(Decode)] struct A { #[type_name] t: String, #[argument] n: u64,
    #[properties] ps: Map<String, Literal>, #[child] c: bool } *)
Definition a_item : src_item span plain :=
  SrcStruct (str "A") [] (FNamed
    [ SrcField (Some (str "t")) (T_ "String") plain_num [AFieldMode FmTypeName];
      SrcField (Some (str "n")) (T_ "u64") plain_num [AFieldMode FmArgument];
      SrcField (Some (str "ps")) (T_ "Map") plain_lit [AFieldMode FmProperties];
      SrcField (Some (str "c")) (T_ "bool") plain_num [AFieldMode FmChild] ]).

Definition a_type : tyimpl span plain :=
  plain_type (fun _ => d_panic)
    (match decode_derive kebab a_item with Some d => dr_node d | None => fun _ => d_panic end).

(** #[derive(Decode)] struct Doc { #[child] a: A } *)
Definition plain_item : src_item span plain :=
  SrcStruct (str "Doc") [] (FNamed [ SrcField (Some (str "a")) (T_ "A") a_type [AFieldMode FmChild] ]).

Definition plain_value : dval plain :=
  VStruct (str "Doc") [(Named (str "a"), VStruct (str "A")
    [(Named (str "t"), VLeaf (PlText (str "t"))); (Named (str "n"), VLeaf (PlNum 1));
     (Named (str "ps"), VPairs
        [(VLeaf (PlText (str "j")), VLeaf (PlLit (LInt Dec (str "1"))));
         (VLeaf (PlText (str "k")), VLeaf (PlLit (LString [0x78; 0x0A]%N)))]);
     (Named (str "c"), VBool true)])].

Lemma plain_type_alike t1 n1 :
  (forall v1 v2, value_alike any_place v1 v2 -> dec_alike any_place (dval_alike eq) (t1 v1) (t1 v2)) ->
  node_impl_alike any_place (dval_alike eq) n1 n1 ->
  type_alike any_place eq (plain_type t1 n1) (plain_type t1 n1).
Proof.
  intros T N. split; cbn; intros; try apply a_panic; try (repeat constructor; assumption); auto.
Qed.

Lemma plain_num_alike : type_alike any_place eq plain_num plain_num.
Proof.
  apply plain_type_alike; [|intros n1 n2 N; apply a_panic]. intros v1 v2 V.
  eapply a_map; [apply int_alike, V|]. intros a b ->. repeat constructor.
Qed.

Lemma plain_lit_alike : type_alike any_place eq plain_lit plain_lit.
Proof.
  apply plain_type_alike; [|intros n1 n2 N; apply a_panic]. intros v1 v2 V.
  eapply a_map; [apply (sa_decode _ _ _ _ (literal_alike any_place)), V|]. intros a b ->. repeat constructor.
Qed.

Lemma a_item_alike : item_alike any_place eq a_item a_item.
Proof.
  constructor; [constructor|]. constructor.
  repeat (apply Forall2_cons; [constructor; [first [exact plain_num_alike|exact plain_lit_alike]|repeat constructor]|]).
  constructor.
Qed.

Lemma plain_alike : item_alike any_place eq plain_item plain_item.
Proof.
  constructor; [constructor|]. constructor. apply F2_one. constructor; [|repeat constructor].
  apply plain_type_alike; [intros; apply a_panic|].
  pose proof (derive_alike any_place eq kebab _ _ a_item_alike) as K.
  revert K. generalize (decode_derive kebab a_item).
  intros [d|] K; [|intros n1 n2 N; apply a_panic]. inversion K as [|d1 d2 D]. apply D.
Qed.

Lemma plain_reads : match decode_derive kebab plain_item with
  | Some d => match dr_children d with
              | Some g => parse (parse_ast_span (render sample)) g = Value_of plain_value
              | None => False
              end
  | None => False
  end.
Proof. vm_compute. reflexivity. Qed.

Lemma plain_read : exists d g, decode_derive kebab plain_item = Some d /\ dr_children d = Some g
  /\ parse (parse_ast_span (render sample)) g = Value_of plain_value.
Proof.
  pose proof plain_reads as K. revert K. generalize (parse_ast_span (render sample)).
  destruct (decode_derive kebab plain_item) as [d|]; [|intros p []].
  intros p. destruct (dr_children d) as [g|] eqn:G; [|intros []].
  intro K. exact (ex_intro _ d (ex_intro _ g (conj eq_refl (conj G K)))).
Qed.
