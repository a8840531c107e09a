(** Model of the parse-error half of src/errors.rs. *)

From Coq Require Import NArith PeanoNat List Bool String.
From Verif Require Import Chars.
Import ListNotations.

(** src/errors.rs:151-159 [TokenFormat]. *)
Inductive token :=
| TChar (c : char)
| TToken (s : text)
| TKind (s : text)
| TOpenRaw (n : nat)
| TCloseRaw (n : nat)
| TEoi.

(** Derived [Ord] of [TokenFormat]: constructor order, then contents. *)
Definition token_rank (t : token) : nat :=
  match t with
  | TChar _ => 0 | TToken _ => 1 | TKind _ => 2
  | TOpenRaw _ => 3 | TCloseRaw _ => 4 | TEoi => 5
  end.

Definition token_compare (a b : token) : comparison :=
  match a, b with
  | TChar x, TChar y => N.compare x y
  | TToken x, TToken y => text_compare x y
  | TKind x, TKind y => text_compare x y
  | TOpenRaw x, TOpenRaw y => Nat.compare x y
  | TCloseRaw x, TCloseRaw y => Nat.compare x y
  | _, _ => Nat.compare (token_rank a) (token_rank b)
  end.

(** [BTreeSet::insert]: sorted, an equal element is kept once. *)
Fixpoint set_insert (t : token) (s : list token) : list token :=
  match s with
  | [] => [t]
  | t' :: s' =>
      match token_compare t t' with
      | Lt => t :: s
      | Eq => s
      | Gt => t' :: set_insert t s'
      end
  end.

(** [BTreeSet::extend] and [collect]. *)
Definition set_extend (dest : list token) (l : list token) : list token :=
  fold_left (fun s t => set_insert t s) l dest.

(** src/errors.rs:206-220 [From<Option<char>>], [From<char>]. *)
Definition token_of (o : option char) : token :=
  match o with Some c => TChar c | None => TEoi end.

(** src/errors.rs:163-203 [ParseError]. *)
Inductive perror (Sp : Type) :=
| EUnexpected (label : option string) (span : Sp) (found : token)
              (expected : list token)
| EUnclosed (label : string) (opened_at : Sp) (opened : token)
            (expected_at : Sp) (expected : token) (found : token)
| EMessage (label : option string) (span : Sp) (message : string)
| EMessageHelp (label : option string) (span : Sp) (message : string)
               (help : string).
Arguments EUnexpected {Sp}.
Arguments EUnclosed {Sp}.
Arguments EMessage {Sp}.
Arguments EMessageHelp {Sp}.

(** src/errors.rs:337-348 [expected_input_found]. *)
Definition expected_input_found {Sp} (span : Sp) (expected : list (option char))
    (found : option char) : perror Sp :=
  EUnexpected None span (token_of found) (set_extend [] (map token_of expected)).

(** src/errors.rs:285-294 [with_expected_token]. *)
Definition with_expected_token {Sp} (tok : text) (e : perror Sp) : perror Sp :=
  match e with
  | EUnexpected l s f _ => EUnexpected l s f [TToken tok]
  | _ => e
  end.

(** src/errors.rs:295-304 [with_expected_kind]. *)
Definition with_expected_kind {Sp} (k : text) (e : perror Sp) : perror Sp :=
  match e with
  | EUnexpected l s f _ => EUnexpected l s f [TKind k]
  | _ => e
  end.

(** src/errors.rs:305-314 [with_no_expected]. *)
Definition with_no_expected {Sp} (e : perror Sp) : perror Sp :=
  match e with
  | EUnexpected l s f _ => EUnexpected l s f []
  | _ => e
  end.

(** src/errors.rs:359-372 [merge].  The last arm is [todo!()]: [None] stands
    for that panic. *)
Definition merge {Sp} (a b : perror Sp) : option (perror Sp) :=
  match a, b with
  | EUnclosed _ _ _ _ _ _, _ => Some a
  | _, EUnclosed _ _ _ _ _ _ => Some b
  | EUnexpected l s f dest, EUnexpected _ _ _ expected =>
      Some (EUnexpected l s f (set_extend dest expected))
  | _, _ => None
  end.

(** src/errors.rs:315-331 [map_span]. *)
Definition map_perror_span {Sp U} (g : Sp -> U) (e : perror Sp) : perror U :=
  match e with
  | EUnexpected l s f x => EUnexpected l (g s) f x
  | EUnclosed l oa o ea x f => EUnclosed l (g oa) o (g ea) x f
  | EMessage l s m => EMessage l (g s) m
  | EMessageHelp l s m h => EMessageHelp l (g s) m h
  end.

(** The spans an error will be rendered with ([#[label]] attributes). *)
Definition perror_spans {Sp} (e : perror Sp) : list Sp :=
  match e with
  | EUnexpected _ s _ _ => [s]
  | EUnclosed _ oa _ ea _ _ => [oa; ea]
  | EMessage _ s _ => [s]
  | EMessageHelp _ s _ _ => [s]
  end.

Local Open Scope N_scope.

(** Lower-case hexadecimal of a number, as [char::escape_default] prints it. *)
Fixpoint hex_digits (fuel : nat) (n : N) (acc : text) : text :=
  match fuel with
  | O => acc
  | S f =>
      let d := n mod 16 in
      let c := if d <? 10 then 0x30 + d else 0x61 + (d - 10) in
      if n / 16 =? 0 then c :: acc else hex_digits f (n / 16) (c :: acc)
  end.

(** [char::escape_default] of the standard library. *)
Definition escape_default_char (c : char) : text :=
  if c =? 0x09 then str "\t"
  else if c =? 0x0D then str "\r"
  else if c =? 0x0A then str "\n"
  else if (c =? 0x27) || (c =? 0x22) || (c =? 0x5C) then [0x5C; c]
  else if (0x20 <=? c) && (c <=? 0x7E) then [c]
  else str "\u{" ++ hex_digits (S (N.to_nat (N.log2 c))) c [] ++ str "}".

Definition escape_default (t : text) : text := flat_map escape_default_char t.

Definition repeat_hash (n : nat) : text := repeat 0x23 n.

(** src/errors.rs:228-264 [Display for TokenFormat]. *)
Definition token_display (t : token) : text :=
  match t with
  | TChar c =>
      if (c =? 0x22) || (c =? 0x27) || (c =? 0x5C)
      then str "`" ++ [c] ++ str "`"
      else str "`" ++ escape_default_char c ++ str "`"
  | TToken s => str "`" ++ escape_default s ++ str "`"
  | TKind s => s
  | TEoi => str "end of input"
  | TOpenRaw n => str "`r" ++ repeat_hash n ++ [0x22] ++ str "`"
  | TCloseRaw n => str "`" ++ [0x22] ++ repeat_hash n ++ str "`"
  end.

(** The loop of src/errors.rs:273-275 over all but the last expected token. *)
Fixpoint commas (l : list token) : text :=
  match l with
  | [] => []
  | t :: l' => str ", " ++ token_display t ++ commas l'
  end.

(** src/errors.rs:266-282 [Display for FormatUnexpected]. *)
Definition format_unexpected (found : token) (expected : list token) : text :=
  str "found " ++ token_display found ++
  match expected with
  | [] => []
  | item :: rest =>
      str ", expected " ++ token_display item ++
      match rev rest with
      | [] => []
      | back :: mid_rev =>
          commas (rev mid_rev) ++ str " or " ++ token_display back
      end
  end.

(** The [#[error(...)]] attributes of [ParseError], src/errors.rs:163-203. *)
Definition perror_message {Sp} (e : perror Sp) : text :=
  match e with
  | EUnexpected _ _ f x => format_unexpected f x
  | EUnclosed l _ o _ _ _ => str "unclosed " ++ str l ++ str " " ++ token_display o
  | EMessage _ _ m => str m
  | EMessageHelp _ _ m _ => str m
  end.

(** The [#[label(...)]] attributes of [ParseError], with their spans. *)
Definition perror_labels {Sp} (e : perror Sp) : list (text * Sp) :=
  let lbl l := match l with Some s => str s | None => str "unexpected token" end in
  match e with
  | EUnexpected l s _ _ => [(lbl l, s)]
  | EUnclosed _ oa _ ea x _ =>
      [(str "opened here", oa); (str "expected " ++ token_display x, ea)]
  | EMessage l s _ => [(lbl l, s)]
  | EMessageHelp l s _ _ => [(lbl l, s)]
  end.
