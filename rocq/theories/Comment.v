(** Nested block comments by counting, and documents with every comment replaced
    by a space. *)

From Coq Require Import NArith List Bool String.
From Verif Require Import Chars Ast Chumsky Kdl KdlText Layout.
Import ListNotations.
Local Open Scope N_scope.

(** Reads until the depth is zero and gives the rest; from left to right,
    slash-star opens and star-slash closes. *)
Fixpoint scan (depth : nat) (t : text) : option text :=
  match depth with
  | O => Some t
  | S d =>
      match t with
      | [] => None
      | a :: t1 =>
          match t1 with
          | [] => None
          | b :: t2 =>
              if (a =? 0x2F) && (b =? 0x2A) then scan (S depth) t2
              else if (a =? 0x2A) && (b =? 0x2F) then scan d t2
              else scan depth t1
          end
      end
  end.

(** The whole text is one comment. *)
Definition nested_comment (s : text) : Prop :=
  exists u, s = str "/*" ++ u /\ scan 1 u = Some [].

Definition blank_welem (w : welem) : welem :=
  match w with WChar c => WChar c | WBlock _ => WChar 0x20 end.

Definition blank_gap (g : gap) : gap :=
  map (fun x => match x with
                | GWs w => GWs (blank_welem w)
                | GCont ws cm nl => GCont (map blank_welem ws) cm nl
                end) g.

Definition blank_lgap (g : lgap) : lgap :=
  map (fun x => match x with LWs w => LWs (blank_welem w) | x => x end) g.

Fixpoint blank_item (i : ditem) : ditem :=
  match i with
  | DSkip g i => DSkip (blank_gap g) (blank_item i)
  | i => i
  end.

Definition blank_items (l : list (gap * ditem)) : list (gap * ditem) :=
  map (fun gi => (blank_gap (fst gi), blank_item (snd gi))) l.

Fixpoint blank_node (n : dnode) : dnode :=
  match n with
  | DNode ty ns nm items ch g t =>
      DNode ty ns nm (blank_items items) (blank_children ch) (blank_gap g) t
  end
with blank_children (ch : dchildren) : dchildren :=
  match ch with
  | DNone => DNone
  | DSome g lg l => DSome (blank_gap g) (blank_lgap lg) (blank_list l)
  | DSkipped g sg lg l =>
      DSkipped (blank_gap g) (blank_gap sg) (blank_lgap lg) (blank_list l)
  end
with blank_list (l : dlist) : dlist :=
  match l with
  | DNil => DNil
  | DCons skip n lg l =>
      DCons (option_map blank_gap skip) (blank_node n) (blank_lgap lg) (blank_list l)
  end.

Definition blank (d : lgap * dlist) : lgap * dlist :=
  (blank_lgap (fst d), blank_list (snd d)).
