(** The unit tests of src/grammar.rs (lines 597-1443) replayed against the
    model: accepted values, and for rejected texts the messages, labels and
    positions of the errors.  These are concrete checks of the model and of the
    recollection of chumsky, not properties. *)

From Coq Require Import NArith List Bool String.
From Verif Require Import Chars Ast Errors Chumsky Spans Grammar.
Import ListNotations.
Local Open Scope string_scope.
Local Open Scope list_scope.

(** src/grammar.rs:619-638: the test driver. *)
Definition drive {A} (p : forall E : env span, parser span A) (t : text)
  : A + list (text * list (text * (nat * nat))) :=
  let '(ts, eoi) := span_stream t in
  match @run span A (@p_then_ignore span A unit (p (span_env eoi))
                       (@p_end span (span_env eoi))) ts with
  | Parsed a => inl a
  | Rejected es =>
      inr (map (fun e => (perror_message e,
             map (fun ls => (fst ls, (sp_start (snd ls),
                                      sp_end (snd ls) - sp_start (snd ls))))
                 (perror_labels e))) es)
  | Panicked => inr [(str "PANIC", [])]
  end.

(** Double quotes in the texts below are written as [']. *)
Definition q (s : string) : text :=
  map (fun c => if N.eqb c 0x27 then 0x22%N else c) (str s).

Definition nl : text := [0x0A%N].

Definition ok {A} (p : forall E : env span, parser span A) (t : text) : Prop :=
  exists a, drive p t = inl a.
Definition rejects {A} (p : forall E : env span, parser span A) (t : text) : Prop :=
  exists e, drive p t = inr e.
Definition errors {A} (p : forall E : env span, parser span A) (t : text)
    (l : list (string * list (string * (nat * nat)))) : Prop :=
  drive p t = inr (map (fun x => (q (fst x),
                     map (fun y => (q (fst y), snd y)) (snd x))) l).

Ltac run_ok := eexists; vm_compute; reflexivity.

(* src/grammar.rs:640-644 parse_ws *)
Example ws_1 : ok (fun E => ws) (q "   "). Proof. run_ok. Qed.
Example ws_2 : rejects (fun E => ws) (q "text"). Proof. run_ok. Qed.

(* src/grammar.rs:646-658 parse_comments *)
Example com_1 : ok (fun E => comment) (q "//hello"). Proof. run_ok. Qed.
Example com_2 : ok (fun E => comment) (q "//hello" ++ nl). Proof. run_ok. Qed.
Example com_3 : ok (fun E => ml_comment) (q "/*nothing*/"). Proof. run_ok. Qed.
Example com_4 : ok (fun E => ml_comment) (q "/*nothing**/"). Proof. run_ok. Qed.
Example com_5 : ok (fun E => ml_comment) (q "/*no*thing*/"). Proof. run_ok. Qed.
Example com_6 : ok (fun E => ml_comment) (q "/*no/**/thing*/"). Proof. run_ok. Qed.
Example com_7 : ok (fun E => ml_comment) (q "/*no/*/**/*/thing*/"). Proof. run_ok. Qed.
Example com_8 : ok (fun E => p_then ws comment) (q "   // hello"). Proof. run_ok. Qed.
Example com_9 : ok (fun E => p_then (p_then (p_then ws comment) ws) comment)
  (q "   // hello" ++ nl ++ q "   //world"). Proof. run_ok. Qed.

(* src/grammar.rs:661-764 parse_comment_err *)
Example come_1 : errors (fun E => ws) (q "/* comment")
  [("unclosed comment `/*`", [("opened here", (0,2)); ("expected `*/`", (10,0))])].
Proof. vm_compute; reflexivity. Qed.
Example come_2 : errors (fun E => ws) (q "/* com/*ment *")
  [("unclosed comment `/*`", [("opened here", (0,2)); ("expected `*/`", (14,0))])].
Proof. vm_compute; reflexivity. Qed.
Example come_3 : errors (fun E => ws) (q "/* com/*me*/nt *")
  [("unclosed comment `/*`", [("opened here", (0,2)); ("expected `*/`", (16,0))])].
Proof. vm_compute; reflexivity. Qed.
Example come_4 : errors (fun E => ws) (q "/* comment *")
  [("unclosed comment `/*`", [("opened here", (0,2)); ("expected `*/`", (12,0))])].
Proof. vm_compute; reflexivity. Qed.
Example come_5 : errors (fun E => ws) (q "/*/")
  [("unclosed comment `/*`", [("opened here", (0,2)); ("expected `*/`", (3,0))])].
Proof. vm_compute; reflexivity. Qed.
Example come_6 : errors (fun E => ws) (q "xxx")
  [("found `x`, expected whitespace", [("unexpected token", (0,1))])].
Proof. vm_compute; reflexivity. Qed.

(* src/grammar.rs:766-774 parse_str *)
Example str_1 : drive (fun E => string_) (q "'hello'") = inl (q "hello").
Proof. vm_compute; reflexivity. Qed.
Example str_2 : drive (fun E => string_) (q "''") = inl (q "").
Proof. vm_compute; reflexivity. Qed.
Example str_3 : drive (fun E => string_) (q "'hel\'lo'") = inl (q "hel'lo").
Proof. vm_compute; reflexivity. Qed.
Example str_4 : drive (fun E => string_) (q "'hello\nworld!'")
  = inl (q "hello" ++ nl ++ q "world!")%list.
Proof. vm_compute; reflexivity. Qed.
Example str_5 : drive (fun E => string_) (q "'\u{1F680}'") = inl [0x1F680%N].
Proof. vm_compute; reflexivity. Qed.

(* src/grammar.rs:776-783 parse_raw_str *)
Example raw_1 : drive (fun E => string_) (q "r'hello'") = inl (q "hello").
Proof. vm_compute; reflexivity. Qed.
Example raw_2 : drive (fun E => string_) (q "r#'world'#") = inl (q "world").
Proof. vm_compute; reflexivity. Qed.
Example raw_3 : drive (fun E => string_) (q "r###'a\n'##b'###") = inl (q "a\n'##b").
Proof. vm_compute; reflexivity. Qed.

(* src/grammar.rs:785-891 parse_str_err *)
Example stre_1 : errors (fun E => string_) (q "'hello")
  [("unclosed string `'`", [("opened here", (0,1)); ("expected `'`", (6,0))])].
Proof. vm_compute; reflexivity. Qed.
Example stre_2 : errors (fun E => string_) (q "'he\u{FFFFFF}llo'")
  [("converted integer out of range for `char`",
    [("invalid character code", (5,8))])].
Proof. vm_compute; reflexivity. Qed.
Example stre_3 : errors (fun E => string_) (q "'he\u{1234567}llo'")
  [("found `7`, expected `}`", [("unexpected token", (12,1))])].
Proof. vm_compute; reflexivity. Qed.
Example stre_4 : errors (fun E => string_) (q "'he\u{1gh}llo'")
  [("found `g`, expected `}` or hexadecimal digit", [("unexpected token", (7,1))])].
Proof. vm_compute; reflexivity. Qed.
Example stre_5 : errors (fun E => string_) (q "'he\x01llo'")
  [("found `x`, expected `'`, `/`, `\`, `b`, `f`, `n`, `r`, `t` or `u`",
    [("invalid escape char", (4,1))])].
Proof. vm_compute; reflexivity. Qed.
Example stre_6 : errors (fun E => string_) (q "'he\u{FFFFFF}l\!lo'")
  [("converted integer out of range for `char`",
    [("invalid character code", (5,8))]);
   ("found `!`, expected `'`, `/`, `\`, `b`, `f`, `n`, `r`, `t` or `u`",
    [("invalid escape char", (15,1))])].
Proof. vm_compute; reflexivity. Qed.

(* src/grammar.rs:892-962 parse_raw_str_err *)
Example rawe_1 : errors (fun E => string_) (q "r'hello")
  [("unclosed raw string `r'`", [("opened here", (0,2)); ("expected `'`", (7,0))])].
Proof. vm_compute; reflexivity. Qed.
Example rawe_2 : errors (fun E => string_) (q "r#'hello'")
  [("unclosed raw string `r#'`", [("opened here", (0,3)); ("expected `'#`", (9,0))])].
Proof. vm_compute; reflexivity. Qed.
Example rawe_3 : errors (fun E => string_) (q "r###'hello")
  [("unclosed raw string `r###'`",
    [("opened here", (0,5)); ("expected `'###`", (10,0))])].
Proof. vm_compute; reflexivity. Qed.
Example rawe_4 : errors (fun E => string_) (q "r###'hello'#world")
  [("unclosed raw string `r###'`",
    [("opened here", (0,5)); ("expected `'###`", (17,0))])].
Proof. vm_compute; reflexivity. Qed.

(* src/grammar.rs:964-985 parse_ident *)
Definition id_ok (s : string) : bool :=
  match drive (fun E => ident) (q s) with
  | inl t => text_eqb t (q s)
  | inr _ => false
  end.
Example ident_1 : forallb id_ok
  ["abcdef"; "xx_cd$yy"; "-"; "--hello"; "--hello1234"; "--1"; "++1"; "-hello";
   "+hello"; "-A"; "+b"] = true.
Proof. vm_compute; reflexivity. Qed.
Example ident_2 : drive (fun E => p_then_ignore ident ws) (q "adef   ") = inl (q "adef").
Proof. vm_compute; reflexivity. Qed.
Example ident_3 : drive (fun E => p_then_ignore ident ws) (q "a123@   ") = inl (q "a123@").
Proof. vm_compute; reflexivity. Qed.
Example ident_4 : rejects (fun E => ident) (q "1abc"). Proof. run_ok. Qed.
Example ident_5 : rejects (fun E => ident) (q "-1"). Proof. run_ok. Qed.
Example ident_6 : rejects (fun E => ident) (q "-1test"). Proof. run_ok. Qed.
Example ident_7 : rejects (fun E => ident) (q "+1"). Proof. run_ok. Qed.

(* src/grammar.rs:987-992 parse_literal *)
Example lit_1 : drive (fun E => literal_) (q "true") = inl (LBool true).
Proof. vm_compute; reflexivity. Qed.
Example lit_2 : drive (fun E => literal_) (q "false") = inl (LBool false).
Proof. vm_compute; reflexivity. Qed.
Example lit_3 : drive (fun E => literal_) (q "null") = inl LNull.
Proof. vm_compute; reflexivity. Qed.

(* src/grammar.rs:994-1048 exclude_keywords *)
Example kw_1 : ok (fun E => nodes) (q "item true"). Proof. run_ok. Qed.
Example kw_2 : errors (fun E => nodes) (q "true 'item'")
  [("found `true`, expected identifier", [("keyword", (0,4))])].
Proof. vm_compute; reflexivity. Qed.
Example kw_3 : errors (fun E => nodes) (q "item false=true")
  [("found keyword, expected identifier or string", [("unexpected keyword", (5,5))])].
Proof. vm_compute; reflexivity. Qed.
Example kw_4 : errors (fun E => nodes) (q "item 2=2")
  [("numbers cannot be used as property names", [("unexpected number", (5,1))])].
Proof. vm_compute; reflexivity. Qed.

(* src/grammar.rs:1050-1094 parse_type, parse_type_err *)
Example ty_1 : drive (fun E => type_name) (q "(abcdef)") = inl (Custom (q "abcdef")).
Proof. vm_compute; reflexivity. Qed.
Example ty_2 : drive (fun E => type_name) (q "(xx_cd$yy)") = inl (Custom (q "xx_cd$yy")).
Proof. vm_compute; reflexivity. Qed.
Example ty_3 : rejects (fun E => type_name) (q "(1abc)"). Proof. run_ok. Qed.
Example ty_4 : rejects (fun E => type_name) (q "( abc)"). Proof. run_ok. Qed.
Example ty_5 : rejects (fun E => type_name) (q "(abc )"). Proof. run_ok. Qed.
Example tye_1 : errors (fun E => type_name) (q "(123)")
  [("found number, expected identifier", [("unexpected number", (1,3))])].
Proof. vm_compute; reflexivity. Qed.
Example tye_2 : errors (fun E => type_name) (q "(-1)")
  [("found number, expected identifier", [("unexpected number", (1,2))])].
Proof. vm_compute; reflexivity. Qed.

(* src/grammar.rs:1102-1253 parse_node, parse_node_whitespace *)
Inductive shape := Sh (ty : option string) (name : string)
  (args : list literal) (props : list (string * (option string * literal)))
  (ch : list shape).
Fixpoint shape_node (s : shape) : node unit :=
  match s with
  | Sh ty nm args props ch =>
      Node (option_map (fun t => Spanned tt (typename_from_string (q t))) ty)
           (Spanned tt (q nm))
           (map (fun l => Value None (Spanned tt l)) args)
           (map (fun p => (Spanned tt (q (fst p)),
                  Value (option_map (fun t => Spanned tt (typename_from_string (q t)))
                                    (fst (snd p)))
                        (Spanned tt (snd (snd p))))) props)
           (match ch with
            | [] => None
            | _ => Some (Spanned tt (map (fun c => Spanned tt (shape_node c)) ch))
            end)
  end.
Definition shapes (t : text) : option (document unit) :=
  match drive (fun E => nodes) t with
  | inl d => Some (map_doc_span (fun _ => tt) d)
  | inr _ => None
  end.
Definition doc (l : list shape) : option (document unit) :=
  Some (map (fun s => Spanned tt (shape_node s)) l).
Definition S_ (s : string) := LString (q s).

Example node_1 : shapes (q "hello") = doc [Sh None "hello" [] [] []].
Proof. vm_compute; reflexivity. Qed.
Example node_2 : shapes (q "'123'") = doc [Sh None "123" [] [] []].
Proof. vm_compute; reflexivity. Qed.
Example node_3 : shapes (q "(typ)other") = doc [Sh (Some "typ") "other" [] [] []].
Proof. vm_compute; reflexivity. Qed.
Example node_4 : shapes (q "('std::duration')'timeout'")
  = doc [Sh (Some "std::duration") "timeout" [] [] []].
Proof. vm_compute; reflexivity. Qed.
Example node_5 : shapes (q "hello 'arg1'") = doc [Sh None "hello" [S_ "arg1"] [] []].
Proof. vm_compute; reflexivity. Qed.
Example node_6 : shapes (q "hello key=(string)'arg1'")
  = doc [Sh None "hello" [] [("key", (Some "string", S_ "arg1"))] []].
Proof. vm_compute; reflexivity. Qed.
Example node_7 : shapes (q "hello key='arg1'")
  = doc [Sh None "hello" [] [("key", (None, S_ "arg1"))] []].
Proof. vm_compute; reflexivity. Qed.
Example node_8 : shapes (q "parent {" ++ nl ++ q "child1" ++ nl ++ q "child2" ++ nl ++ q "}")
  = doc [Sh None "parent" [] [] [Sh None "child1" [] [] []; Sh None "child2" [] [] []]].
Proof. vm_compute; reflexivity. Qed.
Example node_9 : shapes (q "parent{" ++ nl ++ q "child3" ++ nl ++ q "}")
  = doc [Sh None "parent" [] [] [Sh None "child3" [] [] []]].
Proof. vm_compute; reflexivity. Qed.
Example node_10 : shapes (q "parent 'x'=1 {" ++ nl ++ q "child4" ++ nl ++ q "}")
  = doc [Sh None "parent" [] [("x", (None, LInt Dec (q "1")))]
           [Sh None "child4" [] [] []]].
Proof. vm_compute; reflexivity. Qed.
Example node_11 : shapes (q "parent 'x'{" ++ nl ++ q "child5" ++ nl ++ q "}")
  = doc [Sh None "parent" [S_ "x"] [] [Sh None "child5" [] [] []]].
Proof. vm_compute; reflexivity. Qed.
Example node_12 : shapes (q "hello /-'skip_arg' 'arg2'")
  = doc [Sh None "hello" [S_ "arg2"] [] []].
Proof. vm_compute; reflexivity. Qed.
Example node_13 : shapes (q "hello /- 'skip_arg' 'arg2'")
  = doc [Sh None "hello" [S_ "arg2"] [] []].
Proof. vm_compute; reflexivity. Qed.
Example node_14 : shapes (q "hello prop1='1' /-prop1='2'")
  = doc [Sh None "hello" [] [("prop1", (None, S_ "1"))] []].
Proof. vm_compute; reflexivity. Qed.
Example node_15 : shapes (q "parent /-{" ++ nl ++ q "child" ++ nl ++ q "}")
  = doc [Sh None "parent" [] [] []].
Proof. vm_compute; reflexivity. Qed.
Example node_16 : ok (fun E => nodes) (q "hello  {   }  "). Proof. run_ok. Qed.
Example node_17 : shapes (q "hello   ") = doc [Sh None "hello" [] [] []].
Proof. vm_compute; reflexivity. Qed.

(* src/grammar.rs:1255-1351 parse_node_err *)
Example nodee_1 : errors (fun E => nodes) (q "hello{")
  [("unclosed curly braces `{`", [("opened here", (5,1)); ("expected `}`", (6,0))])].
Proof. vm_compute; reflexivity. Qed.
Example nodee_2 : errors (fun E => nodes) (q "hello world")
  [("identifiers cannot be used as arguments", [("unexpected identifier", (6,5))])].
Proof. vm_compute; reflexivity. Qed.
Example nodee_3 : errors (fun E => nodes) (q "hello world {")
  [("identifiers cannot be used as arguments", [("unexpected identifier", (6,5))]);
   ("unclosed curly braces `{`", [("opened here", (12,1)); ("expected `}`", (13,0))])].
Proof. vm_compute; reflexivity. Qed.
Example nodee_4 : errors (fun E => nodes) (q "1 + 2")
  [("found number, expected identifier", [("unexpected number", (0,1))])].
Proof. vm_compute; reflexivity. Qed.
Example nodee_5 : errors (fun E => nodes) (q "-1 +2")
  [("found number, expected identifier", [("unexpected number", (0,2))])].
Proof. vm_compute; reflexivity. Qed.

(* src/grammar.rs:1353-1365 parse_nodes *)
Example nodes_1 : option_map (map (fun n => List.length (node_children (s_value n))))
    (shapes (q "parent {" ++ nl ++ q "/-  child" ++ nl ++ q "}")) = Some [0].
Proof. vm_compute; reflexivity. Qed.
Example nodes_2 : shapes (q "/-parent {" ++ nl ++ q "  child" ++ nl ++ q "}" ++ nl ++ q "second")
  = doc [Sh None "second" [] [] []].
Proof. vm_compute; reflexivity. Qed.

(* src/grammar.rs:1367-1403 parse_number, parse_radix_number *)
Definition num (s : string) : option literal :=
  match drive (fun E => number) (q s) with inl l => Some l | inr _ => None end.
Example num_1 : num "12" = Some (LInt Dec (q "12")). Proof. reflexivity. Qed.
Example num_2 : num "012" = Some (LInt Dec (q "012")). Proof. reflexivity. Qed.
Example num_3 : num "0" = Some (LInt Dec (q "0")). Proof. reflexivity. Qed.
Example num_4 : num "-012" = Some (LInt Dec (q "-012")). Proof. reflexivity. Qed.
Example num_5 : num "+0" = Some (LInt Dec (q "+0")). Proof. reflexivity. Qed.
Example num_6 : num "123_555" = Some (LInt Dec (q "123555")). Proof. reflexivity. Qed.
Example num_7 : num "123.555" = Some (LDecimal (q "123.555")). Proof. reflexivity. Qed.
Example num_8 : num "+1_23.5_55E-17" = Some (LDecimal (q "+123.555E-17")).
Proof. reflexivity. Qed.
Example num_9 : num "123e+555" = Some (LDecimal (q "123e+555")). Proof. reflexivity. Qed.
Example num_10 : num "0x12" = Some (LInt Hex (q "12")). Proof. reflexivity. Qed.
Example num_11 : num "0xab_12" = Some (LInt Hex (q "ab12")). Proof. reflexivity. Qed.
Example num_12 : num "-0xab_12" = Some (LInt Hex (q "-ab12")). Proof. reflexivity. Qed.
Example num_13 : num "0o17" = Some (LInt Oct (q "17")). Proof. reflexivity. Qed.
Example num_14 : num "+0o17" = Some (LInt Oct (q "+17")). Proof. reflexivity. Qed.
Example num_15 : num "0b1010_101" = Some (LInt Bin (q "1010101")). Proof. reflexivity. Qed.

(* src/grammar.rs:1405-1443 parse_dashes *)
Example dash_1 : shapes (q "-") = doc [Sh None "-" [] [] []].
Proof. vm_compute; reflexivity. Qed.
Example dash_2 : shapes (q "--") = doc [Sh None "--" [] [] []].
Proof. vm_compute; reflexivity. Qed.
Example dash_3 : shapes (q "--1") = doc [Sh None "--1" [] [] []].
Proof. vm_compute; reflexivity. Qed.
Example dash_4 : shapes (q "-" ++ nl ++ q "-")
  = doc [Sh None "-" [] [] []; Sh None "-" [] [] []].
Proof. vm_compute; reflexivity. Qed.
Example dash_5 : shapes (q "node -1 --x=2")
  = doc [Sh None "node" [LInt Dec (q "-1")] [("--x", (None, LInt Dec (q "2")))] []].
Proof. vm_compute; reflexivity. Qed.
