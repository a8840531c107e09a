(** The tests of derive/tests (ast.rs, extra.rs, flatten.rs, normal.rs, scalar.rs,
    tuples.rs, types.rs) replayed against the model, from the text of the document to
    the decoded value or the messages of the errors.  These are concrete checks of the
    model, not properties. *)

From Coq Require Import NArith ZArith List Bool String.
From Verif Require Import Chars Ast Errors Chumsky Spans Grammar Conformance.
From Verif Require Import Decode Scalar Containers DeriveDef Derive DeriveScalar.
Import ListNotations.
Local Open Scope string_scope.
Local Open Scope list_scope.

(** The values of the types used in the tests. *)
Inductive leaf :=
| LfText (t : text)
| LfNum (z : Z)
| LfBytes (b : list N)
| LfSpan (s : span)
| LfTypeName (t : typename)
| LfNode (n : snode span).

Definition Ty := tyimpl span leaf.
Definition V := dval leaf.

(** [heck]'s kebab case, for ASCII names in camel case or with underscores. *)
Fixpoint kebab_from (prev_lower : bool) (t : text) : text :=
  match t with
  | [] => []
  | c :: t' =>
      if (0x41 <=? c)%N && (c <=? 0x5A)%N then
        (if prev_lower then [0x2D%N] else []) ++ (c + 0x20)%N :: kebab_from false t'
      else if (c =? 0x5F)%N then 0x2D%N :: kebab_from false t'
      else c :: kebab_from true t'
  end.
Definition kebab : text -> text := kebab_from false.

(** Implementations; what a type does not implement is never reached. *)
Definition ty_none : Ty :=
  TyImpl (fun _ => d_panic) (fun _ => inr (SOther 0)) (fun _ => inr (SOther 0))
    (fun _ => d_panic) (fun _ c => (c, VNone)) VNone (fun s => inl (VLeaf (LfText s)))
    (fun _ _ => d_panic) (fun _ _ _ => d_panic).

Definition ty_scalar {A} (i : scalar_impl span A) (f : A -> V) (dflt : V) : Ty :=
  TyImpl (fun v => d_map f (sc_decode i v)) (fun _ => inr (SOther 0)) (fun _ => inr (SOther 0))
    (fun _ => d_panic) (fun _ c => (c, VNone)) dflt (fun s => inl (VLeaf (LfText s)))
    (fun _ _ => d_panic) (fun _ _ _ => d_panic).

Definition v_text (t : text) : V := VLeaf (LfText t).
Definition v_num (z : Z) : V := VLeaf (LfNum z).
Definition v_opt {A} (f : A -> V) (o : option A) : V :=
  match o with Some a => VSome (f a) | None => VNone end.
Definition s_ (t : string) : V := v_text (q t).

Definition ty_string : Ty := ty_scalar (string_impl TString) v_text (v_text []).
Definition ty_path : Ty := ty_scalar (string_impl TPathBuf) v_text (v_text []).
Definition ty_opt_string : Ty :=
  ty_scalar (option_impl (string_impl TString)) (v_opt v_text) VNone.
Definition ty_u64 : Ty := ty_scalar (int_impl TU64) v_num (v_num 0).
Definition ty_u32 : Ty := ty_scalar (int_impl TU32) v_num (v_num 0).
Definition ty_bool : Ty := ty_scalar bool_impl VBool (VBool false).
(** The only float of the tests, in thousandths. *)
Definition ty_f64 : Ty :=
  ty_scalar (float_impl TF64
    (fun t => if text_eqb t (str "16.125e+1") then Some 161250%Z else None) 0%Z) v_num (v_num 0).
(** A type with [FromStr], such as [SocketAddr]: [known] is a valid text. *)
Definition ty_from_str (parse : text -> V + source) : Ty :=
  TyImpl (fun _ => d_panic) parse (fun _ => inr (SOther 0))
    (fun _ => d_panic) (fun _ c => (c, VNone)) VNone parse
    (fun _ _ => d_panic) (fun _ _ _ => d_panic).
Definition ty_addr : Ty :=
  ty_from_str (fun t => if text_eqb t (str "127.0.0.1:8080") then inl (v_text t)
                        else inr (SMsg (str "invalid socket address syntax"))).
Definition ty_bytes : Ty :=
  TyImpl (fun _ => d_panic) (fun _ => inr (SOther 0)) (fun b => inl (VLeaf (LfBytes b)))
    (fun _ => d_panic) (fun _ c => (c, VNone)) VNone (fun s => inl (VLeaf (LfText s)))
    (fun _ _ => d_panic) (fun _ _ _ => d_panic).
Definition ty_span : Ty :=
  TyImpl (fun _ => d_panic) (fun _ => inr (SOther 0)) (fun _ => inr (SOther 0))
    (fun _ => d_panic) (fun sp c => (c, VLeaf (LfSpan sp))) VNone
    (fun s => inl (VLeaf (LfText s)))
    (fun _ _ => d_panic) (fun _ _ _ => d_panic).

(** The implementations of a type that was itself derived. *)
Definition ty_derived (o : option (derived span leaf)) (dflt : V) : Ty :=
  match o with
  | None => ty_none
  | Some d =>
      TyImpl (fun _ => d_panic) (fun _ => inr (SOther 0)) (fun _ => inr (SOther 0))
        (dr_node d) (fun _ c => (c, VNone)) dflt (fun s => inl (VLeaf (LfText s)))
        (match dr_insert_child d with Some f => f | None => fun _ _ => d_panic end)
        (match dr_insert_property d with Some f => f | None => fun _ _ _ => d_panic end)
  end.

(** Types in the source. *)
Definition T_ (s : string) : rust_type := TPath false false [(str s, false)].
Definition Opt : rust_type := TPath false false [(str "Option", true)].

Definition Attr := attr leaf.
Definition mode_only (m : field_mode) : field_attrs leaf := FieldAttrs (Some m) None None None.
Definition argument : Attr := AFieldMode FmArgument.
Definition arguments : Attr := AFieldMode FmArguments.
Definition property : Attr := AFieldMode (FmProperty None).
Definition properties : Attr := AFieldMode FmProperties.
Definition child_ : Attr := AFieldMode FmChild.
Definition children_ : Attr := AFieldMode (FmChildren None).
Definition children_named (s : string) : Attr := AFieldMode (FmChildren (Some (str s))).

Definition F_ (n : string) (t : rust_type) (i : Ty) (a : list Attr) : src_field span leaf :=
  SrcField (Some (str n)) t i a.
Definition P_ (t : rust_type) (i : Ty) (a : list Attr) : src_field span leaf :=
  SrcField None t i a.

Definition derive (i : src_item span leaf) : option (derived span leaf) := decode_derive kebab i.
Definition struct_ (id : string) (fs : list (src_field span leaf)) : option (derived span leaf) :=
  derive (SrcStruct (str id) [] (FNamed fs)).
Definition S_ (id : string) (fs : list (string * V)) : V :=
  VStruct (str id) (map (fun x => (Named (str (fst x)), snd x)) fs).
Definition Tu_ (id : string) (fs : list V) : V :=
  VStruct (str id) (combine (map Indexed (seq 0 (List.length fs))) fs).

(** [Display] of a [DecodeError], src/errors.rs:39-147; opaque sources give an empty
    text, and the two kinds that the tests do not use are not written out. *)
Definition derror_message {Sp} (e : derror Sp) : text :=
  match e with
  | DMissing _ m | DMissingNode m | DUnexpected _ _ m | DUnsupported _ m => m
  | DConversion _ (SMsg m) | DCustom (SMsg m) => m
  | _ => []
  end.

(** The helpers [parse], [parse_err], [parse_doc] and [parse_doc_err] of the tests. *)
Definition as_vec (o : option (derived span leaf)) (t : text) : V + list text :=
  match o with
  | None => inr [str "does not compile"]
  | Some d =>
      match parse (parse_ast_span t) (vec_children (dr_node d)) with
      | Value_of vs => inl (VList vs)
      | Decode_errors es => inr (map derror_message es)
      | Parse_errors _ => inr [str "parse error"]
      | Panic_of => inr [str "panic"]
      end
  end.

Definition as_doc (o : option (derived span leaf)) (t : text) : V + list text :=
  match o with
  | Some (Derived _ (Some f) _ _) =>
      match parse (parse_ast_span t) f with
      | Value_of v => inl v
      | Decode_errors es => inr (map derror_message es)
      | Parse_errors _ => inr [str "parse error"]
      | Panic_of => inr [str "panic"]
      end
  | _ => inr [str "does not compile"]
  end.

Definition parses o (t : string) (v : V) : Prop := as_vec o (q t) = inl (VList [v]).
Definition parse_errs o (t : string) (es : list string) : Prop :=
  as_vec o (q t) = inr (map q es).
Definition docs o (t : string) (v : V) : Prop := as_doc o (q t) = inl v.
Definition doc_errs o (t : string) (es : list string) : Prop := as_doc o (q t) = inr (map q es).

Ltac run := vm_compute; reflexivity.
Ltac runs := repeat split; vm_compute; reflexivity.

(** derive/tests/normal.rs *)

Definition Arg1 := struct_ "Arg1" [F_ "name" (T_ "String") ty_string [argument]].
Definition Arg1RawIdent := struct_ "Arg1RawIdent" [F_ "type" (T_ "String") ty_string [argument]].
Definition ArgDef :=
  struct_ "ArgDef" [F_ "name" (T_ "String") ty_string [argument; ADefault (s_ "")]].
Definition ArgDefValue :=
  struct_ "ArgDefValue" [F_ "name" (T_ "String") ty_string [argument; ADefault (s_ "unnamed")]].
Definition ArgDefOptValue :=
  struct_ "ArgDefOptValue"
    [F_ "name" Opt ty_opt_string [argument; ADefault (VSome (s_ "unnamed"))]].
Definition OptArg := struct_ "OptArg" [F_ "name" Opt ty_opt_string [argument]].
Definition Extra := struct_ "Extra" [F_ "field" (T_ "String") ty_string []].
Definition VarArg := struct_ "VarArg" [F_ "params" TOther ty_u64 [arguments]].
Definition Prop1 := struct_ "Prop1" [F_ "label" (T_ "String") ty_string [property]].
Definition Prop1RawIdent := struct_ "Prop1RawIdent" [F_ "type" (T_ "String") ty_string [property]].
Definition PropDef :=
  struct_ "PropDef" [F_ "label" (T_ "String") ty_string [property; ADefault (s_ "")]].
Definition PropDefValue :=
  struct_ "PropDefValue" [F_ "label" (T_ "String") ty_string [property; ADefault (s_ "unknown")]].
Definition PropDefOptValue :=
  struct_ "PropDefOptValue"
    [F_ "label" Opt ty_opt_string [property; ADefault (VSome (s_ "unknown"))]].
Definition PropNamed :=
  struct_ "PropNamed"
    [F_ "label" (T_ "String") ty_string [AFieldMode (FmProperty (Some (str "x")))]].
Definition OptProp := struct_ "OptProp" [F_ "label" Opt ty_opt_string [property]].
Definition VarProp := struct_ "VarProp" [F_ "scores" TOther ty_u64 [properties]].
Definition prop1_default : V := S_ "Prop1" [("label", s_ "")].
Definition ty_arg1 : Ty := ty_derived Arg1 VNone.
Definition ty_prop1 : Ty := ty_derived Prop1 prop1_default.
Definition ty_opt_arg : Ty := ty_derived OptArg VNone.
Definition Children := struct_ "Children" [F_ "children" TOther ty_arg1 [children_]].
Definition FilteredChildren :=
  struct_ "FilteredChildren"
    [F_ "left" TOther ty_opt_arg [children_named "left"];
     F_ "right" TOther ty_opt_arg [children_named "right"]].
Definition Variant_ :=
  derive (SrcEnum (str "Variant") []
    [SrcVariant (str "Arg1") [] (FUnnamed [P_ (T_ "Arg1") ty_arg1 []]);
     SrcVariant (str "Prop1") [] (FUnnamed [P_ (T_ "Prop1") ty_prop1 []]);
     SrcVariant (str "Var3") [ASkip] (FUnnamed [P_ (T_ "u32") ty_u32 []])]).
Definition unicode_name : text := [0x443; 0x43D; 0x456; 0x43A; 0x43E; 0x434]%N.
Definition Child_ :=
  struct_ "Child"
    [F_ "main" (T_ "Prop1") ty_prop1 [child_];
     F_ "extra" Opt ty_prop1 [child_];
     F_ "flag" (T_ "bool") ty_bool [child_];
     SrcField (Some unicode_name) Opt ty_prop1 [child_]].
Definition ChildDef :=
  struct_ "ChildDef" [F_ "main" (T_ "Prop1") ty_prop1 [child_; ADefault prop1_default]].
Definition ChildDefValue :=
  struct_ "ChildDefValue"
    [F_ "main" (T_ "Prop1") ty_prop1 [child_; ADefault (S_ "Prop1" [("label", s_ "prop1")])]].
Definition Unwrap :=
  struct_ "Unwrap" [F_ "label" (T_ "String") ty_string [child_; AUnwrap (mode_only FmArgument)]].
Definition UnwrapRawIdent :=
  struct_ "UnwrapRawIdent"
    [F_ "type" (T_ "String") ty_string [child_; AUnwrap (mode_only FmArgument)]].
Definition UnwrapFiltChildren :=
  struct_ "UnwrapFiltChildren"
    [F_ "labels" TOther ty_string [children_named "labels"; AUnwrap (mode_only FmArguments)]].
Definition UnwrapChildren :=
  struct_ "UnwrapChildren"
    [F_ "labels" TOther ty_string [children_; AUnwrap (mode_only FmArguments)]].
Definition Parse :=
  struct_ "Parse"
    [F_ "listen" TOther ty_addr
       [child_; AUnwrap (FieldAttrs (Some FmArgument) (Some DmStr) None None)]].
Definition ParseOpt :=
  struct_ "ParseOpt" [F_ "listen" Opt ty_addr [property; ADecodeMode DmStr]].
Definition Bytes :=
  struct_ "Bytes"
    [F_ "data" TOther ty_bytes
       [child_; AUnwrap (FieldAttrs (Some FmArgument) (Some DmBytes) None None)]].
Definition OptBytes :=
  struct_ "OptBytes" [F_ "data" Opt ty_bytes [property; ADecodeMode DmBytes]].

Example parse_arg1 :
  parses Arg1 "node 'hello'" (S_ "Arg1" [("name", s_ "hello")])
  /\ parse_errs Arg1 "node 'hello' 'world'" ["unexpected argument"]
  /\ parse_errs Arg1 "(some)node 'hello'" ["no type name expected for this node"]
  /\ parse_errs Arg1 "node" ["additional argument `name` is required"].
Proof. runs. Qed.

Example parse_arg1_raw_ident :
  parses Arg1RawIdent "node 'hello'" (S_ "Arg1RawIdent" [("type", s_ "hello")])
  /\ parse_errs Arg1RawIdent "node 'hello' 'world'" ["unexpected argument"]
  /\ parse_errs Arg1RawIdent "(some)node 'hello'" ["no type name expected for this node"]
  /\ parse_errs Arg1RawIdent "node" ["additional argument `type` is required"].
Proof. runs. Qed.

Example parse_arg_default :
  parses ArgDef "node 'hello'" (S_ "ArgDef" [("name", s_ "hello")])
  /\ parse_errs ArgDef "node 'hello' 'world'" ["unexpected argument"]
  /\ parses ArgDef "node" (S_ "ArgDef" [("name", s_ "")]).
Proof. runs. Qed.

Example parse_arg_def_value :
  parses ArgDefValue "node 'hello'" (S_ "ArgDefValue" [("name", s_ "hello")])
  /\ parse_errs ArgDefValue "node 'hello' 'world'" ["unexpected argument"]
  /\ parses ArgDefValue "node" (S_ "ArgDefValue" [("name", s_ "unnamed")])
  /\ parses ArgDefOptValue "node 'hello'" (S_ "ArgDefOptValue" [("name", VSome (s_ "hello"))])
  /\ parses ArgDefOptValue "node" (S_ "ArgDefOptValue" [("name", VSome (s_ "unnamed"))])
  /\ parses ArgDefOptValue "node null" (S_ "ArgDefOptValue" [("name", VNone)]).
Proof. runs. Qed.

Example parse_opt_arg :
  parses OptArg "node 'hello'" (S_ "OptArg" [("name", VSome (s_ "hello"))])
  /\ parses OptArg "node" (S_ "OptArg" [("name", VNone)])
  /\ parses OptArg "node null" (S_ "OptArg" [("name", VNone)]).
Proof. runs. Qed.

Example parse_prop :
  parses Prop1 "node label='hello'" (S_ "Prop1" [("label", s_ "hello")])
  /\ parse_errs Prop1 "node label='hello' y='world'" ["unexpected property `y`"]
  /\ parse_errs Prop1 "node" ["property `label` is required"].
Proof. runs. Qed.

Example parse_prop_raw_ident :
  parses Prop1RawIdent "node type='hello'" (S_ "Prop1RawIdent" [("type", s_ "hello")])
  /\ parse_errs Prop1RawIdent "node type='hello' y='world'" ["unexpected property `y`"]
  /\ parse_errs Prop1RawIdent "node" ["property `type` is required"].
Proof. runs. Qed.

Example parse_prop_default :
  parses PropDef "node label='hello'" (S_ "PropDef" [("label", s_ "hello")])
  /\ parses PropDef "node" (S_ "PropDef" [("label", s_ "")]).
Proof. runs. Qed.

Example parse_prop_def_value :
  parses PropDefValue "node label='hello'" (S_ "PropDefValue" [("label", s_ "hello")])
  /\ parses PropDefValue "node" (S_ "PropDefValue" [("label", s_ "unknown")])
  /\ parses PropDefOptValue "node label='hello'"
       (S_ "PropDefOptValue" [("label", VSome (s_ "hello"))])
  /\ parses PropDefOptValue "node" (S_ "PropDefOptValue" [("label", VSome (s_ "unknown"))])
  /\ parses PropDefOptValue "node label=null" (S_ "PropDefOptValue" [("label", VNone)]).
Proof. runs. Qed.

Example parse_prop_named :
  parses PropNamed "node x='hello'" (S_ "PropNamed" [("label", s_ "hello")])
  /\ parse_errs PropNamed "node label='hello' y='world'" ["unexpected property `label`"]
  /\ parse_errs PropNamed "node" ["property `x` is required"].
Proof. runs. Qed.

Example parse_unwrap :
  parses Unwrap "node { label 'hello'; }" (S_ "Unwrap" [("label", s_ "hello")])
  /\ parse_errs Unwrap "node label='hello'" ["unexpected property `label`"]
  /\ parse_errs Unwrap "node" ["child node `label` is required"]
  /\ docs Unwrap "label 'hello'" (S_ "Unwrap" [("label", s_ "hello")]).
Proof. runs. Qed.

Example parse_unwrap_raw_ident :
  parses UnwrapRawIdent "node { type 'hello'; }" (S_ "UnwrapRawIdent" [("type", s_ "hello")])
  /\ parse_errs UnwrapRawIdent "node type='hello'" ["unexpected property `type`"]
  /\ parse_errs UnwrapRawIdent "node" ["child node `type` is required"]
  /\ docs UnwrapRawIdent "type 'hello'" (S_ "UnwrapRawIdent" [("type", s_ "hello")]).
Proof. runs. Qed.

Definition labels (id : string) : V :=
  S_ id [("labels", VList [VList [s_ "hello"; s_ "world"]; VList [s_ "oh"; s_ "my"]])].

Example parse_unwrap_filtered_children :
  parses UnwrapFiltChildren "node { labels 'hello' 'world'; labels 'oh' 'my'; }"
    (labels "UnwrapFiltChildren").
Proof. run. Qed.

Example parse_unwrap_children :
  parses UnwrapChildren "node { some 'hello' 'world'; other 'oh' 'my'; }"
    (labels "UnwrapChildren").
Proof. run. Qed.

Example parse_opt_prop :
  parses OptProp "node label='hello'" (S_ "OptProp" [("label", VSome (s_ "hello"))])
  /\ parses OptProp "node" (S_ "OptProp" [("label", VNone)])
  /\ parses OptProp "node label=null" (S_ "OptProp" [("label", VNone)]).
Proof. runs. Qed.

Example parse_var_arg :
  parses VarArg "sum 1 2 3" (S_ "VarArg" [("params", VList [v_num 1; v_num 2; v_num 3])])
  /\ parses VarArg "sum" (S_ "VarArg" [("params", VList [])]).
Proof. runs. Qed.

Example parse_var_prop :
  parses VarProp "scores john=13 jack=7"
    (S_ "VarProp" [("scores", VPairs [(s_ "jack", v_num 7); (s_ "john", v_num 13)])])
  /\ parses VarProp "scores" (S_ "VarProp" [("scores", VPairs [])]).
Proof. runs. Qed.

Definition two_args : V :=
  S_ "Children" [("children", VList [S_ "Arg1" [("name", s_ "val1")];
                                     S_ "Arg1" [("name", s_ "val2")]])].

Example parse_children :
  parses Children "parent { - 'val1'; - 'val2'; }" two_args
  /\ parses Children "parent" (S_ "Children" [("children", VList [])])
  /\ docs Children "- 'val1'; - 'val2'" two_args
  /\ docs Children "" (S_ "Children" [("children", VList [])]).
Proof. runs. Qed.

Definition opt_arg (s : string) : V := S_ "OptArg" [("name", VSome (s_ s))].
Definition no_arg : V := S_ "OptArg" [("name", VNone)].

Example parse_filtered_children :
  docs FilteredChildren "left 'v1'; right 'v2'; left 'v3'"
    (S_ "FilteredChildren" [("left", VList [opt_arg "v1"; opt_arg "v3"]);
                            ("right", VList [opt_arg "v2"])])
  /\ docs FilteredChildren "right; left"
       (S_ "FilteredChildren" [("left", VList [no_arg]); ("right", VList [no_arg])])
  /\ doc_errs FilteredChildren "some" ["unexpected node `some`"].
Proof. runs. Qed.

Definition prop1 (s : string) : V := S_ "Prop1" [("label", s_ s)].
Definition the_child (main extra flag uni : V) : V :=
  VStruct (str "Child") [(Named (str "main"), main); (Named (str "extra"), extra);
                         (Named (str "flag"), flag); (Named unicode_name, uni)].

Example parse_child :
  parses Child_ "parent { main label='val1'; }"
    (the_child (prop1 "val1") VNone (VBool false) VNone)
  /\ parses Child_ "parent { main label='primary'; extra label='replica'; }"
    (the_child (prop1 "primary") (VSome (prop1 "replica")) (VBool false) VNone)
  /\ parse_errs Child_ "parent { something; }"
       ["unexpected node `something`"; "child node `main` is required"]
  /\ parse_errs Child_ "parent" ["child node `main` is required"]
  /\ docs Child_ "main label='val1'"
       (the_child (prop1 "val1") VNone (VBool false) VNone)
  /\ as_doc Child_ (q "main label='primary'" ++ nl ++ q "extra label='replica'" ++ nl
                    ++ q "flag" ++ nl)
     = inl (the_child (prop1 "primary") (VSome (prop1 "replica")) (VBool true) VNone)
  /\ doc_errs Child_ "something"
       ["unexpected node `something`"; "child node `main` is required"]
  /\ doc_errs Child_ "" ["child node `main` is required"]
  /\ as_doc Child_ (q "main label='primary'" ++ nl ++ unicode_name ++ q " label='x'" ++ nl)
     = inl (the_child (prop1 "primary") VNone (VBool false) (VSome (prop1 "x"))).
Proof. runs. Qed.

Example parse_child_def :
  parses ChildDef "parent { main label='val1'; }" (S_ "ChildDef" [("main", prop1 "val1")])
  /\ parses ChildDef "parent" (S_ "ChildDef" [("main", prop1 "")]).
Proof. runs. Qed.

Example parse_child_def_value :
  parses ChildDefValue "parent { main label='val1'; }"
    (S_ "ChildDefValue" [("main", prop1 "val1")])
  /\ parses ChildDefValue "parent" (S_ "ChildDefValue" [("main", prop1 "prop1")]).
Proof. runs. Qed.

Definition Va_ (id v : string) (fs : list V) : V := VVariant (str id) (str v) fs.

Example parse_enum :
  parses Variant_ "arg1 'hello'" (Va_ "Variant" "Arg1" [S_ "Arg1" [("name", s_ "hello")]])
  /\ parses Variant_ "prop1 label='hello'" (Va_ "Variant" "Prop1" [prop1 "hello"])
  /\ parse_errs Variant_ "something" ["expected one of `arg1`, `prop1`"].
Proof. runs. Qed.

Example parse_str :
  docs Parse "listen '127.0.0.1:8080'" (S_ "Parse" [("listen", s_ "127.0.0.1:8080")])
  /\ doc_errs Parse "listen '2/3'" ["invalid socket address syntax"]
  /\ parses ParseOpt "server listen='127.0.0.1:8080'"
       (S_ "ParseOpt" [("listen", VSome (s_ "127.0.0.1:8080"))])
  /\ parse_errs ParseOpt "server listen='2/3'" ["invalid socket address syntax"]
  /\ parses ParseOpt "server listen=null" (S_ "ParseOpt" [("listen", VNone)]).
Proof. runs. Qed.

Definition b_ (s : string) : V := VLeaf (LfBytes (str s)).

Example parse_bytes :
  docs Bytes "data (base64)'aGVsbG8='" (S_ "Bytes" [("data", b_ "hello")])
  /\ docs Bytes "data 'world'" (S_ "Bytes" [("data", b_ "world")])
  /\ doc_errs Bytes "data (base64)'2/3'" [""]
  /\ parses OptBytes "node data=(base64)'aGVsbG8='" (S_ "OptBytes" [("data", VSome (b_ "hello"))])
  /\ parses OptBytes "node data='world'" (S_ "OptBytes" [("data", VSome (b_ "world"))])
  /\ parses OptBytes "node data=null" (S_ "OptBytes" [("data", VNone)]).
Proof. runs. Qed.

Example parse_extra :
  parses Extra "data" (S_ "Extra" [("field", s_ "")])
  /\ parse_errs Extra "data x=1" ["unexpected property `x`"].
Proof. runs. Qed.

(** derive/tests/flatten.rs *)

Definition FProp1 := struct_ "Prop1" [F_ "label" Opt ty_opt_string [property]].
Definition FlatProp :=
  struct_ "FlatProp"
    [F_ "props" (T_ "Prop1") (ty_derived FProp1 (S_ "Prop1" [("label", VNone)]))
       [AFieldMode (FmFlatten false true)]].
Definition FUnwrap :=
  struct_ "Unwrap" [F_ "label" Opt ty_string [child_; AUnwrap (mode_only FmArgument)]].
Definition FlatChild :=
  struct_ "FlatChild"
    [F_ "children" (T_ "Unwrap") (ty_derived FUnwrap (S_ "Unwrap" [("label", VNone)]))
       [AFieldMode (FmFlatten true false)]].

Example parse_flat_prop :
  parses FlatProp "node label='hello'"
    (S_ "FlatProp" [("props", S_ "Prop1" [("label", VSome (s_ "hello"))])])
  /\ parse_errs FlatProp "node something='world'" ["unexpected property `something`"].
Proof. runs. Qed.

Example parse_flat_child :
  docs FlatChild "label 'hello'"
    (S_ "FlatChild" [("children", S_ "Unwrap" [("label", VSome (s_ "hello"))])])
  /\ doc_errs FlatChild "something 'world'" ["unexpected node `something`"].
Proof. runs. Qed.

(** derive/tests/extra.rs *)

Definition EChild := derive (SrcStruct (str "Child") [] FUnit).
Definition NodeSpan :=
  derive (SrcStruct (str "NodeSpan") [ASpanType]
    (FNamed [F_ "span" (T_ "Span") ty_span [AFieldMode FmSpan];
             F_ "name" (T_ "String") ty_string [argument];
             F_ "children" TOther (ty_derived EChild VNone) [children_]])).
Definition ty_parse_string : Ty := ty_from_str (fun t => inl (v_text t)).
Definition ty_parse_type_name : Ty :=
  ty_from_str (fun t => inl (VLeaf (LfTypeName (typename_from_string t)))).
Definition NodeType :=
  struct_ "NodeType" [F_ "type_name" (T_ "String") ty_parse_string [AFieldMode FmTypeName]].
Definition NameAndType :=
  struct_ "NameAndType"
    [F_ "node_name" (T_ "String") ty_parse_string [AFieldMode FmNodeName];
     F_ "type_name" Opt ty_parse_type_name [AFieldMode FmTypeName]].
Definition node_span_value (a b : nat) (n : nat) : V :=
  S_ "NodeSpan" [("span", VLeaf (LfSpan (Span a b))); ("name", s_ "hello");
                 ("children", VList (repeat (VStruct (str "Child") []) n))].

Example parse_node_span :
  parses NodeSpan "node 'hello'" (node_span_value 0 12 0)
  /\ parses NodeSpan "   node  'hello'     " (node_span_value 3 21 0)
  /\ parses NodeSpan "   node  'hello';     " (node_span_value 3 17 0)
  /\ parses NodeSpan "   node  'hello'     {   child;   }" (node_span_value 3 35 1).
Proof. runs. Qed.

Example parse_node_type :
  parses NodeType "(unknown)node {}" (S_ "NodeType" [("type_name", s_ "unknown")]).
Proof. run. Qed.

Example parse_name_and_type :
  parses NameAndType "(u32)nodexxx"
    (S_ "NameAndType" [("node_name", s_ "nodexxx");
                       ("type_name", VSome (VLeaf (LfTypeName (Builtin U32))))])
  /\ parses NameAndType "yyynode /-{   }"
    (S_ "NameAndType" [("node_name", s_ "yyynode"); ("type_name", VNone)]).
Proof. runs. Qed.

(** derive/tests/tuples.rs *)

Definition TUnit := derive (SrcStruct (str "Unit") [] FUnit).
Definition TArg := derive (SrcStruct (str "Arg") [] (FUnnamed [P_ (T_ "u32") ty_u32 [argument]])).
Definition ty_targ : Ty := ty_derived TArg VNone.
Definition TOpt := derive (SrcStruct (str "Opt") [] (FUnnamed [P_ Opt ty_targ []])).
Definition TExtra :=
  derive (SrcStruct (str "Extra") []
    (FUnnamed [P_ Opt ty_opt_string [argument]; P_ (T_ "u32") ty_u32 []])).
Definition TEnum :=
  derive (SrcEnum (str "Enum") []
    [SrcVariant (str "Unit") [] FUnit;
     SrcVariant (str "Arg") [] (FUnnamed [P_ (T_ "u32") ty_u32 [argument]]);
     SrcVariant (str "Opt") [] (FUnnamed [P_ Opt ty_targ []]);
     SrcVariant (str "Extra") []
       (FUnnamed [P_ Opt ty_opt_string [argument]; P_ (T_ "u32") ty_u32 []])]).

Example parse_unit :
  parses TUnit "node" (VStruct (str "Unit") [])
  /\ parse_errs TUnit "node something='world'" ["unexpected property `something`"].
Proof. runs. Qed.

Example parse_arg :
  parses TArg "node 123" (Tu_ "Arg" [v_num 123])
  /\ parse_errs TArg "node something='world'" ["additional argument is required"].
Proof. runs. Qed.

Example parse_tuple_extra :
  parses TExtra "node '123'" (Tu_ "Extra" [VSome (s_ "123"); v_num 0])
  /\ parses TExtra "node" (Tu_ "Extra" [VNone; v_num 0])
  /\ parse_errs TExtra "node '123' 456" ["unexpected argument"].
Proof. runs. Qed.

Example parse_opt :
  parses TOpt "node 123" (Tu_ "Opt" [VSome (Tu_ "Arg" [v_num 123])])
  /\ parses TOpt "node" (Tu_ "Opt" [VNone])
  /\ parse_errs TOpt "node something='world'" ["additional argument is required"].
Proof. runs. Qed.

Example parse_tuple_enum :
  parses TEnum "unit" (Va_ "Enum" "Unit" [])
  /\ parses TEnum "arg 123" (Va_ "Enum" "Arg" [v_num 123])
  /\ parses TEnum "opt 123" (Va_ "Enum" "Opt" [VSome (Tu_ "Arg" [v_num 123])])
  /\ parses TEnum "opt" (Va_ "Enum" "Opt" [VNone])
  /\ parses TEnum "extra" (Va_ "Enum" "Extra" [VNone; v_num 0])
  /\ parse_errs TEnum "unit something='world'" ["unexpected property `something`"]
  /\ parse_errs TEnum "other something='world'" ["expected `unit`, `arg`, or one of 2 others"]
  /\ parse_errs TEnum "extra 'hello' 'world'" ["unexpected argument"].
Proof. runs. Qed.

(** derive/tests/types.rs *)

Definition un (n t : string) (i : Ty) : src_field span leaf :=
  F_ n (T_ t) i [child_; AUnwrap (mode_only FmArgument)].
Definition Scalars :=
  struct_ "Scalars"
    [un "str" "String" ty_string; un "u64" "u64" ty_u64; un "f64" "f64" ty_f64;
     un "path" "PathBuf" ty_path; un "boolean" "bool" ty_bool].

Example parse_types :
  as_doc Scalars (nl ++ q "   str 'hello'" ++ nl ++ q "   u64 1234" ++ nl
                  ++ q "   f64 16.125e+1" ++ nl ++ q "   path '/hello/world'" ++ nl
                  ++ q "   boolean true" ++ nl ++ q "   ")
  = inl (S_ "Scalars" [("str", s_ "hello"); ("u64", v_num 1234); ("f64", v_num 161250);
                       ("path", s_ "/hello/world"); ("boolean", VBool true)]).
Proof. run. Qed.

(** derive/tests/scalar.rs *)

Definition some_scalar_item : src_item span leaf :=
  SrcEnum (str "SomeScalar") []
    [SrcVariant (str "First") [] FUnit; SrcVariant (str "AnotherOption") [] FUnit].
Definition some_scalar : scalar_impl span (dval leaf) :=
  match scalar_derive kebab some_scalar_item with
  | inl i => i
  | inr _ => scalar_default (fun _ c => c) (fun _ => d_panic)
  end.
Definition Item :=
  struct_ "Item" [F_ "value" (T_ "SomeScalar") (ty_scalar some_scalar (fun v => v) VNone) [argument]].

Example parse_some_scalar :
  parses Item "node 'first'" (S_ "Item" [("value", Va_ "SomeScalar" "First" [])])
  /\ parses Item "node 'another-option'"
       (S_ "Item" [("value", Va_ "SomeScalar" "AnotherOption" [])])
  /\ parse_errs Item "node 'test'" ["expected one of `first`, `another-option`"].
Proof. runs. Qed.

(** derive/tests/ast.rs *)

Definition ty_ast : Ty :=
  TyImpl (fun _ => d_panic) (fun _ => inr (SOther 0)) (fun _ => inr (SOther 0))
    (fun n => d_map (fun x => VLeaf (LfNode x)) (ast_snode_impl span_self n))
    (fun _ c => (c, VNone)) VNone (fun s => inl (VLeaf (LfText s)))
    (fun _ _ => d_panic) (fun _ _ _ => d_panic).
Definition AstChildren :=
  derive (SrcStruct (str "AstChildren") [ASpanType]
    (FNamed [F_ "children" TOther ty_ast [children_]])).

Example parse_ast_children :
  exists a b, parses AstChildren "node {a; b;}" (S_ "AstChildren" [("children", VList [a; b])]).
Proof. eexists; eexists. vm_compute. reflexivity. Qed.
