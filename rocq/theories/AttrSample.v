(** Attributes as they are written, and items with them. *)

From Coq Require Import NArith ZArith List Bool String Lia Permutation.
From Verif Require Import Chars Ast Errors Chumsky Spans Grammar Conformance Kdl.
From Verif Require Import Decode Scalar Containers DecodeSpec DeriveDef Derive DeriveSpec FieldSpec
  StructSpec DeriveConformance DeriveSample AcceptSpec AcceptProps AcceptSample
  AttrParse AttrSpec AttrProps AttrItem.
Import ListNotations.
Local Open Scope string_scope.
Local Open Scope list_scope.

(** Expressions and types for the examples: everything up to a comma.  Of expressions only
    those that begin with a string literal, which is their value. *)
Fixpoint upto (ts : list token) : list token * list token :=
  match ts with
  | [] => ([], [])
  | TkPunct 44 :: _ => ([], ts)
  | t :: ts' => let (a, b) := upto ts' in (t :: a, b)
  end.

Definition sample_expr (ts : list token) : option (dval leaf * list token) :=
  match upto ts with
  | (TkStr s :: _, rest) => Some (v_text s, rest)
  | _ => None
  end.

Definition sample_type (ts : list token) : option (unit * list token) :=
  match upto ts with
  | (_ :: _, rest) => Some (tt, rest)
  | _ => None
  end.

Lemma upto_app ts : ts = fst (upto ts) ++ snd (upto ts).
Proof.
  induction ts as [|t ts IH]; [reflexivity|]. cbn [upto].
  destruct t as [| c | | |]; try (destruct (upto ts); cbn in *; now rewrite IH at 1).
  destruct (N.eq_dec c 44) as [->|N]; [reflexivity|].
  assert (K : upto (TkPunct c :: ts) = let (a, b) := upto ts in (TkPunct c :: a, b)).
  { cbn [upto]. destruct c as [|p]; [reflexivity|].
    do 6 (destruct p as [p|p|]; try reflexivity). contradiction. }
  cbn [upto] in K. rewrite K. destruct (upto ts); cbn in *. now rewrite IH at 1.
Qed.

Lemma upto_more ts c rest : c = TkPunct 44 ->
  (snd (upto ts) = [] -> upto (ts ++ c :: rest) = (ts, c :: rest))
  /\ (snd (upto ts) <> [] -> upto (ts ++ c :: rest) = (fst (upto ts), snd (upto ts) ++ c :: rest)).
Proof.
  intros ->. induction ts as [|t ts [IH1 IH2]]; [now cbn|].
  assert (K : forall l, t = TkPunct 44 \/ upto (t :: l) = let (a, b) := upto l in (t :: a, b)).
  { intros l. cbn [upto]. destruct t as [|c| | |]; auto.
    destruct c as [|p]; [auto|]. do 6 (destruct p as [p|p|]; auto). }
  cbn [app]. destruct (K ts) as [->|K1]; [cbn; split; [discriminate|reflexivity]|].
  destruct (K (ts ++ TkPunct 44 :: rest)) as [->|K2]; [cbn; split; [discriminate|reflexivity]|].
  rewrite K1, K2. destruct (upto ts) as [a b]. cbn [fst snd] in *. split; intros N.
  - now rewrite (IH1 N).
  - now rewrite (IH2 N).
Qed.

Lemma upto_whole ts : snd (upto ts) = [] -> fst (upto ts) = ts.
Proof. intros H. rewrite (upto_app ts) at 2. now rewrite H, app_nil_r. Qed.

Lemma upto_stops {A} (f : list token -> option A) :
  stops (fun ts => match f (fst (upto ts)) with Some v => Some (v, snd (upto ts)) | None => None end).
Proof.
  split.
  - intros ts v rest. destruct (f (fst (upto ts))); [|discriminate]. intros H.
    injection H as <- <-. exists (fst (upto ts)). apply upto_app.
  - intros used v rest [->|[r ->]]; [now rewrite app_nil_r|].
    destruct (upto_more used (TkPunct 44) r eq_refl) as [M1 M2].
    destruct (snd (upto used)) as [|x b] eqn:S.
    + rewrite (M1 eq_refl). cbn [fst snd]. rewrite (upto_whole used S).
      destruct (f used); split; congruence.
    + rewrite M2 by discriminate. cbn [fst snd].
      destruct (f (fst (upto used))); [|split; discriminate]. split; [|discriminate].
      intros H. injection H as _ _ H. exfalso. apply (f_equal (@List.length token)) in H.
      rewrite app_length in H. cbn in H. lia.
Qed.

Lemma stops_ext {A} (P Q : list token -> option (A * list token)) : (forall ts, P ts = Q ts) ->
  stops P -> stops Q.
Proof.
  intros E [F C]. split.
  - intros ts v rest. rewrite <- E. apply F.
  - intros used v rest. rewrite <- !E. apply C.
Qed.

Lemma sample_expr_stops : stops sample_expr.
Proof.
  refine (stops_ext _ _ _ (upto_stops
    (fun l => match l with TkStr s :: _ => Some (v_text s) | _ => None end))).
  intros ts. unfold sample_expr. now destruct (upto ts) as [[|[] ?] ?].
Qed.

Lemma sample_type_stops : stops sample_type.
Proof.
  refine (stops_ext _ _ _ (upto_stops (fun l => match l with _ :: _ => Some tt | [] => None end))).
  intros ts. unfold sample_type. now destruct (upto ts) as [[|] ?].
Qed.

(** [#[knuffel(..)]], [#[doc = ".."]]. *)
Definition knuffel (ts : list token) : attribute :=
  Attribute true false [(str "knuffel", false)] [TkGroup Parenthesis ts].
Definition doc (s : string) : attribute :=
  Attribute true false [(str "doc", false)] [TkPunct 61; TkStr (str s)].

Definition comma_ : token := TkPunct 44.
Definition parens (ts : list token) : token := TkGroup Parenthesis ts.

(** [argument, default="unnamed".into()]. *)
Definition ts_argument : list token := [word "argument"].
Definition ts_default : list token :=
  [word "default"; TkPunct 61; TkStr (str "unnamed"); TkPunct 46; word "into"; parens []].
(** [child, unwrap(argument, str),]. *)
Definition ts_child : list token :=
  [word "child"; comma_; word "unwrap"; parens [word "argument"; comma_; word "str"]; comma_].
(** [property(name="x")]. *)
Definition ts_property : list token :=
  [word "property"; parens [word "name"; TkPunct 61; TkStr (str "x")]].
(** [flatten(child, property)]. *)
Definition ts_flatten : list token :=
  [word "flatten"; parens [word "child"; comma_; word "property"]].

Definition default_attr : attr leaf := ADefault (v_text (str "unnamed")).
Definition unwrap_str : attr leaf := AUnwrap (FieldAttrs (Some FmArgument) (Some DmStr) None None).

Notation sample_written := (written sample_expr sample_type (v_text [])).

Lemma sample_list attrs l : parse_attr_list sample_expr sample_type (v_text []) attrs = (l, []) ->
  sample_written attrs l.
Proof. apply (list_iff sample_expr sample_type _ sample_expr_stops sample_type_stops). Qed.

Lemma sample_reads :
  sample_written [doc "Name."; knuffel (ts_argument ++ comma_ :: ts_default)] [argument; default_attr]
  /\ sample_written [knuffel ts_child] [child_; unwrap_str]
  /\ sample_written [knuffel ts_property] [AFieldMode (FmProperty (Some (str "x")))]
  /\ sample_written [knuffel ts_flatten] [AFieldMode (FmFlatten true true)]
  /\ sample_written [knuffel []; doc ""] []
  /\ sample_written [knuffel [word "default"]] [ADefault (v_text [])].
Proof. repeat split; apply sample_list; vm_compute; reflexivity. Qed.

(** [argument default], [arguments(..)], [unwrap(str, str)], [unknown], [default 1],
    [#[knuffel]]. *)
Definition bad_attrs : list attribute :=
  [ knuffel [word "argument"; word "default"]; knuffel [word "arguments"; parens []];
    knuffel [word "unwrap"; parens [word "str"; comma_; word "str"]];
    knuffel [word "unknown"]; knuffel [word "default"; TkLit];
    knuffel [comma_];
    Attribute true false [(str "knuffel", false)] [] ].

Lemma bad_unwritten : Forall (fun a => forall l, ~ sample_written [a] l) bad_attrs.
Proof.
  repeat constructor; intros l W;
    apply (list_iff sample_expr sample_type _ sample_expr_stops sample_type_stops) in W;
    vm_compute in W; discriminate.
Qed.

(** An item with them. *)
Definition tok_one : tok_item span leaf :=
  TokStruct (str "One") [doc "One."; knuffel [word "span_type"; TkPunct 61; word "Span"]]
    (KNamed
      [ TokField (Some (str "name")) (T_ "String") ty_string (v_text [])
          [doc "Name."; knuffel (ts_argument ++ comma_ :: ts_default)];
        TokField (Some (str "child")) (T_ "String") ty_string (v_text []) [knuffel ts_child] ]).
Definition src_one (l : list (attr leaf)) : src_item span leaf :=
  SrcStruct (str "One") [ASpanType]
    (FNamed [F_ "name" (T_ "String") ty_string l; F_ "child" (T_ "String") ty_string [child_; unwrap_str]]).

Lemma tok_one_written :
  item_written sample_expr sample_type tok_one (src_one [argument; default_attr]).
Proof.
  apply (read_item_iff sample_expr sample_type sample_expr_stops sample_type_stops).
  vm_compute. reflexivity.
Qed.

Lemma tok_one_derived : derive_tokens sample_expr sample_type kebab tok_one <> None
  /\ (forall j, item_written sample_expr sample_type tok_one j -> item_proper j).
Proof.
  split.
  - assert (K : (if derive_tokens sample_expr sample_type kebab tok_one then true else false) = true)
      by (vm_compute; reflexivity).
    intros E. rewrite E in K. discriminate.
  - intros j W.
    apply (read_item_iff sample_expr sample_type sample_expr_stops sample_type_stops) in W.
    assert (K : j = src_one [argument; default_attr]).
    { apply (f_equal fst) in W. cbn [fst] in W. rewrite <- W. vm_compute. reflexivity. }
    subst j. exact I.
Qed.

Lemma src_one_reordered :
  item_reordered (src_one [argument; default_attr]) (src_one [default_attr; argument]).
Proof.
  constructor; [auto|]. constructor. repeat constructor.
Qed.

Lemma spread_sample : ours (knuffel ts_argument) /\ ts_argument <> []
  /\ (forall t, ts_argument <> t ++ [TkPunct 44])
  /\ sample_written [knuffel ts_argument; knuffel ts_default] [argument; default_attr]
  /\ ~ ours (doc "").
Proof.
  split; [now repeat split|]. split; [discriminate|]. split.
  - intros [|x [|y t]] H; discriminate.
  - split; [apply sample_list; vm_compute; reflexivity|]. intros (_ & _ & H). discriminate.
Qed.
