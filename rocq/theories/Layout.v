(** Documents written out in full, with every choice of layout and spelling: the
    texts [render d] for well-formed [d], and what they should mean.

    Simplifications: a gap does not begin with U+FEFF, and nor does the name of a
    property (it is both a space and an identifier character); the newline of a
    line continuation is not a lone CR (an LF after it would join it). *)

From Coq Require Import NArith List Bool String Permutation.
From Verif Require Import Chars Ast Chumsky Kdl KdlText.
Import ListNotations.
Local Open Scope N_scope.

(** ** Gaps *)

Inductive welem :=
| WChar (c : char)
| WBlock (s : text).

(** An element of the space inside a node. *)
Inductive gelem :=
| GWs (w : welem)
| GCont (ws : list welem) (comment : option text) (nl : text).

(** An element of the space between nodes. *)
Inductive lelem :=
| LWs (w : welem)
| LNewline (nl : text)
| LComment (body nl : text).

Definition render_welem (w : welem) : text :=
  match w with WChar c => [c] | WBlock s => s end.

Definition render_gelem (g : gelem) : text :=
  match g with
  | GWs w => render_welem w
  | GCont ws cm nl =>
      0x5C :: flat_map render_welem ws
      ++ match cm with None => [] | Some b => str "//" ++ b end ++ nl
  end.

Definition render_lelem (l : lelem) : text :=
  match l with
  | LWs w => render_welem w
  | LNewline nl => nl
  | LComment body nl => str "//" ++ body ++ nl
  end.

Definition gap := list gelem.
Definition lgap := list lelem.

Definition render_gap (g : gap) : text := flat_map render_gelem g.
Definition render_lgap (g : lgap) : text := flat_map render_lelem g.

(** The seven forms of a newline. *)
Definition newline_text (nl : text) : Prop :=
  nl = [0x0D; 0x0A] \/ exists c, In c newline_chars /\ nl = [c].

Definition wf_welem (w : welem) : Prop :=
  match w with WChar c => In c ws_chars | WBlock s => block true s end.

Definition wf_gelem (g : gelem) : Prop :=
  match g with
  | GWs w => wf_welem w
  | GCont ws cm nl =>
      Forall wf_welem ws /\ newline_text nl /\ nl <> [0x0D]
      /\ match cm with None => True | Some b => no_newline b end
  end.

Definition wf_lelem (l : lelem) : Prop :=
  match l with
  | LWs w => wf_welem w
  | LNewline nl => newline_text nl
  | LComment body nl => no_newline body /\ newline_text nl
  end.

Definition wf_gap (g : gap) : Prop :=
  Forall wf_gelem g /\ hd_error (render_gap g) <> Some 0xFEFF.
Definition wf_lgap (g : lgap) : Prop := Forall wf_lelem g.

(** ** Values and items *)

(** A value with its spelling. *)
Record dvalue := DValue {
  dv_type : option (text * typename);
  dv_text : text;
  dv_literal : literal;
}.

Definition render_type (o : option (text * typename)) : text :=
  match o with None => [] | Some (s, _) => s end.

Definition wf_type (o : option (text * typename)) : Prop :=
  match o with None => True | Some (s, ty) => type_text s ty end.

Definition plain_type (o : option (text * typename))
  : option (spanned typename unit) :=
  option_map (fun x => Spanned tt (snd x)) o.

Definition render_dvalue (v : dvalue) : text := render_type (dv_type v) ++ dv_text v.

Definition wf_dvalue (v : dvalue) : Prop :=
  wf_type (dv_type v) /\ literal_text (dv_text v) (dv_literal v).

Definition plain_value (v : dvalue) : value unit :=
  Value (plain_type (dv_type v)) (Spanned tt (dv_literal v)).

Inductive ditem :=
| DArg (v : dvalue)
| DProp (key_source key : text) (v : dvalue)
| DSkip (g : gap) (i : ditem).

Fixpoint render_item (i : ditem) : text :=
  match i with
  | DArg v => render_dvalue v
  | DProp ks _ v => ks ++ 0x3D :: render_dvalue v
  | DSkip g i => str "/-" ++ render_gap g ++ render_item i
  end.

Definition wf_plain_item (i : ditem) : Prop :=
  match i with
  | DArg v => wf_dvalue v
  | DProp ks k v => key_text ks k /\ hd_error ks <> Some 0xFEFF /\ wf_dvalue v
  | DSkip _ _ => False
  end.

Definition wf_item (i : ditem) : Prop :=
  match i with
  | DSkip g i => wf_gap g /\ wf_plain_item i
  | i => wf_plain_item i
  end.

Definition render_items (l : list (gap * ditem)) : text :=
  flat_map (fun gi => render_gap (fst gi) ++ render_item (snd gi)) l.

Definition wf_items (l : list (gap * ditem)) : Prop :=
  Forall (fun gi => wf_gap (fst gi) /\ fst gi <> [] /\ wf_item (snd gi)) l.

(** The arguments and the properties, as written. *)
Definition item_args (l : list (gap * ditem)) : list (value unit) :=
  flat_map (fun gi => match snd gi with DArg v => [plain_value v] | _ => [] end) l.

Definition item_props (l : list (gap * ditem)) : list (spanned text unit * value unit) :=
  flat_map (fun gi => match snd gi with
                      | DProp _ k v => [(Spanned tt k, plain_value v)]
                      | _ => []
                      end) l.

(** ** Nodes *)

Inductive dterm :=
| TNewline (nl : text)
| TComment (body nl : text)
| TSemicolon
| TEof
| TCommentEof (body : text).

Definition render_term (t : dterm) : text :=
  match t with
  | TNewline nl => nl
  | TComment body nl => str "//" ++ body ++ nl
  | TSemicolon => [0x3B]
  | TEof => []
  | TCommentEof body => str "//" ++ body
  end.

Definition wf_term (t : dterm) : Prop :=
  match t with
  | TNewline nl => newline_text nl
  | TComment body nl => no_newline body /\ newline_text nl
  | TSemicolon => True
  | TEof => True
  | TCommentEof body => no_newline body
  end.

Definition is_eof (t : dterm) : bool :=
  match t with TEof | TCommentEof _ => true | _ => false end.

(** Type name, name with its source, items, children, space, terminator. *)
Inductive dnode :=
| DNode (ty : option (text * typename)) (name_source name : text)
    (items : list (gap * ditem)) (ch : dchildren) (g : gap) (t : dterm)
with dchildren :=
| DNone
| DSome (g : gap) (lg : lgap) (l : dlist)
| DSkipped (g sg : gap) (lg : lgap) (l : dlist)
with dlist :=
| DNil
| DCons (skip : option gap) (n : dnode) (lg : lgap) (l : dlist).

Fixpoint render_node (n : dnode) : text :=
  match n with
  | DNode ty ns _ items ch g t =>
      render_type ty ++ ns ++ render_items items ++ render_children ch
      ++ render_gap g ++ render_term t
  end
with render_children (ch : dchildren) : text :=
  match ch with
  | DNone => []
  | DSome g lg l => render_gap g ++ 0x7B :: render_lgap lg ++ render_list l ++ [0x7D]
  | DSkipped g sg lg l =>
      render_gap g ++ str "/-" ++ render_gap sg
      ++ 0x7B :: render_lgap lg ++ render_list l ++ [0x7D]
  end
with render_list (l : dlist) : text :=
  match l with
  | DNil => []
  | DCons skip n lg l =>
      match skip with None => [] | Some g => str "/-" ++ render_gap g end
      ++ render_node n ++ render_lgap lg ++ render_list l
  end.

Definition render (d : lgap * dlist) : text := render_lgap (fst d) ++ render_list (snd d).

(** A node name is a quoted string, or a bare identifier not beginning with
    U+FEFF. *)
Inductive wf_name : text -> text -> Prop :=
| WN_bare s : bare_text s -> hd_error s <> Some 0xFEFF -> wf_name s s
| WN_escaped s t : escaped_text s t -> wf_name s t.

(** [last]: the node ends the whole text. *)
Inductive wf_node : bool -> dnode -> Prop :=
| WF_node last ty ns nm items ch g t :
    wf_type ty -> wf_name ns nm -> wf_items items -> wf_children ch ->
    wf_gap g -> wf_term t -> (is_eof t = true -> last = true) ->
    wf_node last (DNode ty ns nm items ch g t)
with wf_children : dchildren -> Prop :=
| WF_none : wf_children DNone
| WF_some g lg l : wf_gap g -> wf_lgap lg -> wf_list false l ->
    wf_children (DSome g lg l)
| WF_skipped g sg lg l : wf_gap g -> wf_gap sg -> wf_lgap lg -> wf_list false l ->
    wf_children (DSkipped g sg lg l)
with wf_list : bool -> dlist -> Prop :=
| WF_nil top : wf_list top DNil
| WF_cons top skip n lg l :
    (forall g, skip = Some g -> wf_gap g) ->
    wf_node (top && match lg, l with [], DNil => true | _, _ => false end) n ->
    wf_lgap lg -> wf_list top l -> wf_list top (DCons skip n lg l).

Definition wf (d : lgap * dlist) : Prop := wf_lgap (fst d) /\ wf_list true (snd d).

(** ** Contents *)

Inductive node_content : dnode -> node unit -> Prop :=
| NC ty ns nm items ch g t ps c :
    property_map (item_props items) ps -> children_content ch c ->
    node_content (DNode ty ns nm items ch g t)
      (Node (plain_type ty) (Spanned tt nm) (item_args items) ps c)
with children_content : dchildren -> option (spanned (list (snode unit)) unit) -> Prop :=
| CC_none : children_content DNone None
| CC_some g lg l c : list_content l c -> children_content (DSome g lg l) (Some (Spanned tt c))
| CC_skipped g sg lg l : children_content (DSkipped g sg lg l) None
with list_content : dlist -> list (snode unit) -> Prop :=
| LCn_nil : list_content DNil []
| LCn_cons n lg l c cl : node_content n c -> list_content l cl ->
    list_content (DCons None n lg l) (Spanned tt c :: cl)
| LCn_skip g n lg l cl : list_content l cl -> list_content (DCons (Some g) n lg l) cl.

Definition content (d : lgap * dlist) (D : document unit) : Prop := list_content (snd d) D.

(** ** Leaving out what is slashdashed *)

Definition remove_items (l : list (gap * ditem)) : list (gap * ditem) :=
  filter (fun gi => match snd gi with DSkip _ _ => false | _ => true end) l.

Fixpoint remove_node (n : dnode) : dnode :=
  match n with
  | DNode ty ns nm items ch g t =>
      DNode ty ns nm (remove_items items) (remove_children ch) g t
  end
with remove_children (ch : dchildren) : dchildren :=
  match ch with
  | DNone => DNone
  | DSome g lg l => DSome g lg (remove_list l)
  | DSkipped _ _ _ _ => DNone
  end
with remove_list (l : dlist) : dlist :=
  match l with
  | DNil => DNil
  | DCons None n lg l => DCons None (remove_node n) lg (remove_list l)
  | DCons (Some _) _ _ l => remove_list l
  end.

Definition remove_skipped (d : lgap * dlist) : lgap * dlist := (fst d, remove_list (snd d)).

(** ** The same document with another layout *)

(** The same up to gaps, spaces between nodes, and the form of the terminators. *)
Inductive relaid_item : ditem -> ditem -> Prop :=
| RI_arg v : relaid_item (DArg v) (DArg v)
| RI_prop ks k v : relaid_item (DProp ks k v) (DProp ks k v)
| RI_skip g g' i i' : relaid_item i i' -> relaid_item (DSkip g i) (DSkip g' i').

Inductive relaid_node : dnode -> dnode -> Prop :=
| RN ty ns nm items items' ch ch' g g' t t' :
    Forall2 (fun a b => relaid_item (snd a) (snd b)) items items' ->
    relaid_children ch ch' ->
    relaid_node (DNode ty ns nm items ch g t) (DNode ty ns nm items' ch' g' t')
with relaid_children : dchildren -> dchildren -> Prop :=
| RC_none : relaid_children DNone DNone
| RC_some g g' lg lg' l l' : relaid_list l l' ->
    relaid_children (DSome g lg l) (DSome g' lg' l')
| RC_skipped g g' sg sg' lg lg' l l' : relaid_list l l' ->
    relaid_children (DSkipped g sg lg l) (DSkipped g' sg' lg' l')
with relaid_list : dlist -> dlist -> Prop :=
| RL_nil : relaid_list DNil DNil
| RL_cons n n' lg lg' l l' : relaid_node n n' -> relaid_list l l' ->
    relaid_list (DCons None n lg l) (DCons None n' lg' l')
| RL_skip g g' n n' lg lg' l l' : relaid_node n n' -> relaid_list l l' ->
    relaid_list (DCons (Some g) n lg l) (DCons (Some g') n' lg' l').

Definition relaid (d d' : lgap * dlist) : Prop := relaid_list (snd d) (snd d').

(** ** The same document with the properties in another order *)

(** In every node the same arguments in the same order, and the same properties
    in any order, interleaved with the arguments in any way; no name twice. *)
Inductive reordered_node : dnode -> dnode -> Prop :=
| ON ty ns nm items items' ch ch' g t :
    item_args items = item_args items' ->
    Permutation (item_props items) (item_props items') ->
    NoDup (map key_of (item_props items)) ->
    reordered_children ch ch' ->
    reordered_node (DNode ty ns nm items ch g t) (DNode ty ns nm items' ch' g t)
with reordered_children : dchildren -> dchildren -> Prop :=
| OC_none : reordered_children DNone DNone
| OC_some g lg l l' : reordered_list l l' ->
    reordered_children (DSome g lg l) (DSome g lg l')
| OC_skipped g sg lg l l' : reordered_list l l' ->
    reordered_children (DSkipped g sg lg l) (DSkipped g sg lg l')
with reordered_list : dlist -> dlist -> Prop :=
| OL_nil : reordered_list DNil DNil
| OL_cons skip n n' lg l l' : reordered_node n n' -> reordered_list l l' ->
    reordered_list (DCons skip n lg l) (DCons skip n' lg l').

Definition reordered (d d' : lgap * dlist) : Prop :=
  fst d = fst d' /\ reordered_list (snd d) (snd d').

(** The last property with the name [k] has the value [v]. *)
Definition last_property (items : list (gap * ditem)) (k : text) (v : value unit) : Prop :=
  exists l1 g ks dv l2, items = l1 ++ (g, DProp ks k dv) :: l2 /\ v = plain_value dv
    /\ forall g' ks' v', ~ In (g', DProp ks' k v') l2.
