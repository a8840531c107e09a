(** What a text means: the grammar of [Kdl.v] with the spans left out; and a
    printer for documents. *)

From Coq Require Import NArith List Bool String.
From Verif Require Import Chars Ast Chumsky Kdl.
Import ListNotations.
Local Open Scope N_scope.

(** The trivial span type. *)
Definition unit_env : env unit := {|
  sp_join _ _ := tt;
  sp_at_start _ _ := tt;
  sp_at_end _ := tt;
  sp_before_start _ _ := tt;
  sp_length _ := 0%nat;
  sp_eoi := tt;
|}.

Definition plain (t : text) : toks unit := map (fun c => (c, tt)) t.

(** [means strict t d]: the text [t] is a way to write the document [d].  With
    [strict], slash-star inside a block comment always opens a nested one. *)
Definition means (strict : bool) (t : text) (d : document unit) : Prop :=
  @document_at unit unit_env strict (plain t) d.

Definition without_spans {Sp} (d : document Sp) : document unit :=
  map_doc_span (fun _ => tt) d.

(** ** Canonical text of a document *)

(** A string in double quotes, with double quotes and backslashes escaped. *)
Fixpoint print_chars (t : text) : text :=
  match t with
  | [] => []
  | c :: t' =>
      if (c =? 0x22) || (c =? 0x5C) then 0x5C :: c :: print_chars t'
      else c :: print_chars t'
  end.

Definition print_string (t : text) : text := 0x22 :: print_chars t ++ [0x22].

Definition radix_mark (r : radix) : text :=
  match r with
  | Bin => str "0b"
  | Oct => str "0o"
  | Hex => str "0x"
  | Dec => []
  end.

(** The mark of the radix goes after the sign. *)
Definition print_int (r : radix) (digits : text) : text :=
  match digits with
  | c :: ds =>
      if (c =? 0x2B) || (c =? 0x2D) then c :: radix_mark r ++ ds
      else radix_mark r ++ digits
  | [] => radix_mark r
  end.

Definition print_literal (l : literal) : text :=
  match l with
  | LNull => str "null"
  | LBool true => str "true"
  | LBool false => str "false"
  | LInt r ds => print_int r ds
  | LDecimal t => t
  | LString t => print_string t
  end.

Definition type_text_of (ty : typename) : text :=
  match ty with
  | Builtin b => builtin_as_str b
  | Custom t => t
  end.

Definition print_type {Sp} (o : option (spanned typename Sp)) : text :=
  match o with
  | None => []
  | Some ty => 0x28 :: print_string (type_text_of (s_value ty)) ++ [0x29]
  end.

Definition print_value {Sp} (v : value Sp) : text :=
  print_type (v_type_name v) ++ print_literal (s_value (v_literal v)).

Definition print_args {Sp} (l : list (value Sp)) : text :=
  flat_map (fun v => 0x20 :: print_value v) l.

Definition print_props {Sp} (l : list (spanned text Sp * value Sp)) : text :=
  flat_map (fun kv => 0x20 :: print_string (s_value (fst kv)) ++ 0x3D :: print_value (snd kv)) l.

(** One node per line; children in braces. *)
Fixpoint print_node {Sp} (n : node Sp) : text :=
  match n with
  | Node ty nm args props ch =>
      print_type ty ++ print_string (s_value nm) ++ print_args args ++ print_props props
      ++ match ch with
         | None => []
         | Some l =>
             0x20 :: 0x7B :: 0x0A
             :: flat_map (fun n => print_node (s_value n)) (s_value l) ++ [0x7D]
         end
      ++ [0x0A]
  end.

Definition print_document {Sp} (d : document Sp) : text :=
  flat_map (fun n => print_node (s_value n)) d.

(** ** Documents that can be written *)

Definition radix_value (r : radix) : N :=
  match r with Bin => 2 | Oct => 8 | Dec => 10 | Hex => 16 end.

Definition writable_literal (l : literal) : Prop :=
  match l with
  | LInt r t => exists sg ds, t = sg ++ ds /\ opt_sign_text sg /\ ds <> []
                  /\ Forall (digit_char (radix_value r)) ds
  | LDecimal t => exists sg s f e, t = sg ++ s ++ f ++ e /\ opt_sign_text sg
                  /\ integer_text 10 s /\ fraction_text f /\ exponent_text e
                  /\ f ++ e <> [] /\ ~ In 0x5F t
  | _ => True
  end.

(** A builtin type name other than [usize] and [isize], or any other text. *)
Definition writable_type (ty : typename) : Prop :=
  match ty with
  | Builtin b => b <> Usize /\ b <> Isize
  | Custom t => ~ In t (map fst type_names)
  end.

Definition writable_opt_type {Sp} (o : option (spanned typename Sp)) : Prop :=
  match o with None => True | Some ty => writable_type (s_value ty) end.

Definition writable_value {Sp} (v : value Sp) : Prop :=
  writable_opt_type (v_type_name v) /\ writable_literal (s_value (v_literal v)).

Inductive writable {Sp} : node Sp -> Prop :=
| Writable ty nm args props ch :
    writable_opt_type ty -> Forall writable_value args ->
    increasing props -> Forall (fun kv => writable_value (snd kv)) props ->
    (forall l, ch = Some l -> writable_list (s_value l)) ->
    writable (Node ty nm args props ch)
with writable_list {Sp} : list (snode Sp) -> Prop :=
| WL_nil : writable_list []
| WL_cons n l : writable (s_value n) -> writable_list l -> writable_list (n :: l).
