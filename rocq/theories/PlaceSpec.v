(** The places of a document: where a node, its name, an element or a value may
    begin.  The text [p] is what comes before the place and [x] the rest of the
    document, of any form. *)

From Coq Require Import NArith List String.
From Verif Require Import Chars Ast Chumsky Kdl KdlText.
Import ListNotations.
Local Open Scope list_scope.

(** Nothing, or a slash, a dash and spaces: what follows is commented out. *)
Definition dashed (d x : text) : Prop :=
  not_ws x /\ (d = [] \/ exists s, d = str "/-" ++ s /\ many (nspace_at true) s x).

(** A type name in parentheses, optional. *)
Definition typed (s : text) : Prop := s = [] \/ exists ty, type_text s ty.

(** The beginning of a node: its type, its name and elements. *)
Definition head (h x : text) : Prop :=
  exists st sn si nm l, h = st ++ sn ++ si /\ typed st /\ ident_at sn (si ++ x) nm
    /\ @items_at unit unit_env true (plain si) (plain x) l.

(** A place where a node may begin: at the start of the document, after a node,
    or after the opening brace of a node's children, each after line spaces. *)
Inductive begun : text -> text -> Prop :=
| Begun_start sp x : many (lspace_at true) sp x -> begun sp x
| Begun_after p d s sp x n : begun p (d ++ s ++ sp ++ x) -> dashed d (s ++ sp ++ x) ->
    @node_at unit unit_env true (plain s) (plain (sp ++ x)) n -> many (lspace_at true) sp x ->
    begun (p ++ d ++ s ++ sp) x
| Begun_inside p d h sb d' sp x :
    begun p (d ++ h ++ sb ++ d' ++ str "{" ++ sp ++ x) ->
    dashed d (h ++ sb ++ d' ++ str "{" ++ sp ++ x) -> head h (sb ++ d' ++ str "{" ++ sp ++ x) ->
    many (nspace_at true) sb (d' ++ str "{" ++ sp ++ x) -> dashed d' (str "{" ++ sp ++ x) ->
    many (lspace_at true) sp x ->
    begun (p ++ d ++ h ++ sb ++ d' ++ str "{" ++ sp) x.

(** A place for the name of a node. *)
Definition name_place (p x : text) : Prop :=
  exists p0 d st, p = p0 ++ d ++ st /\ begun p0 (d ++ st ++ x) /\ dashed d (st ++ x) /\ typed st.

(** A place for an argument or property of a node. *)
Definition item_place (p x : text) : Prop :=
  exists p0 d h sp d', p = p0 ++ d ++ h ++ sp ++ d'
    /\ begun p0 (d ++ h ++ sp ++ d' ++ x) /\ dashed d (h ++ sp ++ d' ++ x)
    /\ head h (sp ++ d' ++ x) /\ sp <> [] /\ many (nspace_at true) sp (d' ++ x) /\ dashed d' x.

(** A place for a value: after a type name, or after the name of a property and
    an equals sign, and perhaps a type name. *)
Definition value_place (p x : text) : Prop :=
  (exists p0 st ty, p = p0 ++ st /\ item_place p0 (st ++ x) /\ type_text st ty)
  \/ (exists p0 sk k st, p = p0 ++ sk ++ str "=" ++ st /\ item_place p0 (sk ++ str "=" ++ st ++ x)
        /\ key_text sk k /\ typed st).
