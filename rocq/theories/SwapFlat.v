(** Nodes of different names can be inserted into a flattened struct in either order. *)

From Coq Require Import NArith List Bool String Lia Permutation.
From Verif Require Import Chars Ast Errors Kdl Decode Scalar Containers DecodeSpec DecodeProps
  DeriveDef Derive DeriveSpec DeriveProps FieldSpec FieldProps StructSpec StructProps HandSpec
  LexIdent SteadySpec SteadyProps SwapProps.
Import ListNotations.
Local Open Scope list_scope.

(** ** Fields of a value *)

Section Fields.
Context {Sp L : Type}.
Implicit Types (a b : access) (o : option (dval L)) (self : list (access * dval L)).

Definition put a o self : list (access * dval L) :=
  match o with Some x => set_field a x self | None => self end.

Lemma get_set a x : forall self, get_field a self <> None -> get_field a (set_field a x self) = Some x.
Proof.
  induction self as [|[b v] self IH]; cbn [get_field set_field]; [congruence|].
  destruct (access_eqb a b) eqn:E; cbn [get_field]; rewrite E; auto.
Qed.

Lemma get_set_ne a b x : a <> b -> forall self, get_field b (set_field a x self) = get_field b self.
Proof.
  intros N. induction self as [|[k v] self IH]; cbn [get_field set_field]; [reflexivity|].
  destruct (access_eqb a k) eqn:E; cbn [get_field].
  - apply access_eqb_spec in E. subst k. destruct (access_eqb b a) eqn:E; [|reflexivity].
    apply access_eqb_spec in E. congruence.
  - now rewrite IH.
Qed.

Lemma set_get a x : forall self, get_field a self = Some x -> set_field a x self = self.
Proof.
  induction self as [|[k v] self IH]; cbn [get_field set_field]; [reflexivity|].
  destruct (access_eqb a k); intros H; [congruence|]. now rewrite IH.
Qed.

Lemma set_set a x y : forall self, set_field a y (set_field a x self) = set_field a y self.
Proof.
  induction self as [|[k v] self IH]; cbn [set_field]; [reflexivity|].
  destruct (access_eqb a k) eqn:E; cbn [set_field]; rewrite E; [reflexivity|]. now rewrite IH.
Qed.

Lemma set_swap a b x y : a <> b -> forall self,
  set_field a x (set_field b y self) = set_field b y (set_field a x self).
Proof.
  intros N. induction self as [|[k v] self IH]; cbn [set_field]; [reflexivity|].
  destruct (access_eqb b k) eqn:E; cbn [set_field]; destruct (access_eqb a k) eqn:E'; cbn [set_field];
    rewrite ?E, ?E'; try reflexivity.
  - apply access_eqb_spec in E, E'. congruence.
  - now rewrite IH.
Qed.

(** The values of some fields. *)
Definition attr_of (d : child Sp L) : access := f_attr (ch_field d).
Definition gets (ds : list (child Sp L)) self : list (option (dval L)) :=
  map (fun d => get_field (attr_of d) self) ds.
Fixpoint puts (ds : list (child Sp L)) (os : list (option (dval L))) self : list (access * dval L) :=
  match ds, os with
  | d :: ds', o :: os' => puts ds' os' (put (attr_of d) o self)
  | _, _ => self
  end.

(** There is a value exactly if the field exists. *)
Definition fits self (d : child Sp L) o : Prop := o = None <-> get_field (attr_of d) self = None.

Lemma gets_put a o ds self : ~ In a (map attr_of ds) -> gets ds (put a o self) = gets ds self.
Proof.
  intros N. apply map_ext_in. intros d I. destruct o as [x|]; [|reflexivity]. apply get_set_ne.
  intros ->. apply N. now apply in_map.
Qed.

Lemma fits_put a o ds os self : ~ In a (map attr_of ds) ->
  Forall2 (fits self) ds os -> Forall2 (fits (put a o self)) ds os.
Proof.
  intros N F. induction F as [|d o' ds os H F IH]; constructor.
  - unfold fits in *. destruct o as [x|]; [|exact H]. cbn [put]. rewrite get_set_ne; [exact H|].
    intros ->. apply N. now left.
  - apply IH. intros I. apply N. now right.
Qed.

Lemma get_puts a : forall ds os self, ~ In a (map attr_of ds) ->
  get_field a (puts ds os self) = get_field a self.
Proof.
  induction ds as [|d ds IH]; intros [|o os] self N; cbn [puts]; try reflexivity.
  rewrite IH by (intros I; apply N; now right). destruct o as [x|]; [|reflexivity].
  apply get_set_ne. intros <-. apply N. now left.
Qed.

Lemma put_puts a o : forall ds os self, ~ In a (map attr_of ds) ->
  put a o (puts ds os self) = puts ds os (put a o self).
Proof.
  induction ds as [|d ds IH]; intros [|o' os] self N; cbn [puts]; try reflexivity.
  rewrite IH by (intros I; apply N; now right). f_equal.
  destruct o as [x|], o' as [y|]; cbn [put]; try reflexivity. apply set_swap.
  intros ->. apply N. now left.
Qed.

Lemma get_put d o self : fits self d o -> get_field (attr_of d) (put (attr_of d) o self) = o.
Proof.
  unfold fits. destruct o as [x|]; cbn [put]; intros H.
  - apply get_set. intros Q. apply H in Q. discriminate.
  - now apply H.
Qed.

Lemma gets_puts : forall ds os self, NoDup (map attr_of ds) -> Forall2 (fits self) ds os ->
  gets ds (puts ds os self) = os.
Proof.
  induction ds as [|d ds IH]; intros os self N F; inversion F as [|? o ? os' H F']; subst; [reflexivity|].
  cbn [map] in N. apply NoDup_cons_iff in N. destruct N as [N N']. cbn [puts gets map].
  rewrite get_puts by exact N. rewrite get_put by exact H. f_equal.
  apply IH; [exact N'|]. now apply fits_put.
Qed.

Lemma puts_puts : forall ds os os' self, NoDup (map attr_of ds) ->
  Forall2 (fits self) ds os -> Forall2 (fits self) ds os' ->
  puts ds os' (puts ds os self) = puts ds os' self.
Proof.
  induction ds as [|d ds IH]; intros os os' self N F F'; inversion F as [|? o ? l H F1]; subst;
    inversion F' as [|? o' ? l' H' F1']; subst; [reflexivity|].
  cbn [map] in N. apply NoDup_cons_iff in N. destruct N as [N N']. cbn [puts].
  rewrite put_puts by exact N.
  assert (E : put (attr_of d) o' (put (attr_of d) o self) = put (attr_of d) o' self).
  { unfold fits in *. destruct o' as [y|]; cbn [put].
    - destruct o as [x|]; [apply set_set|reflexivity].
    - destruct o as [x|]; [|reflexivity]. exfalso. assert (Q : Some x = None) by (apply H, H'; reflexivity).
      discriminate. }
  rewrite E. apply IH; [exact N'| |]; now apply fits_put.
Qed.

Lemma put_get a self : put a (get_field a self) self = self.
Proof. destruct (get_field a self) as [x|] eqn:E; cbn [put]; [now apply set_get|reflexivity]. Qed.

Lemma puts_gets : forall ds self, puts ds (gets ds self) self = self.
Proof.
  induction ds as [|d ds IH]; intros self; [reflexivity|]. cbn [gets map puts]. rewrite put_get. apply IH.
Qed.

Lemma fits_gets ds self : Forall2 (fits self) ds (gets ds self).
Proof. induction ds as [|d ds IH]; constructor; [unfold fits; tauto|exact IH]. Qed.

(** ** The branches *)

Context (kebab : text -> text).

Definition field_cell (d : child Sp L) o (n : snode Sp) : dec Sp (bool * option (dval L)) :=
  match ch_mode d with
  | CmFlatten =>
      match o with
      | Some x => d_map (fun r : bool * dval L => (fst r, Some (snd r))) (ti_insert_child (f_impl (ch_field d)) x n)
      | None => d_panic
      end
  | CmBool =>
      if text_eqb (name_of n) (ch_name d) then fun c =>
        let c' := check_flag_node n c in
        match o with
        | Some (VBool true) => (emit_error (duplicate_node d n) c', DOk (true, o))
        | Some (VBool false) => (c', DOk (true, Some (VBool true)))
        | _ => (c', DPanic)
        end
      else d_ok (false, o)
  | CmNormal =>
      if text_eqb (name_of n) (ch_name d) then
        d_bind (match o with
                | Some VNone => d_ok tt
                | Some (VSome _) => d_emit (duplicate_node d n)
                | _ => d_panic
                end) (fun _ =>
        d_map (fun x => (true, Some (VSome x))) (child_fn kebab d n))
      else d_ok (false, o)
  | CmMulti => if text_eqb (name_of n) (ch_name d) then d_panic else d_ok (false, o)
  end.

Lemma insert_cell d ds self n c :
  insert_child kebab (d :: ds) self n c
  = d_bind (field_cell d (get_field (attr_of d) self) n) (fun r =>
      if fst r then d_ok (true, put (attr_of d) (snd r) self)
      else insert_child kebab ds (put (attr_of d) (snd r) self) n) c.
Proof.
  cbn [insert_child]. unfold field_cell, name_of, attr_of. destruct (ch_mode d).
  - destruct (text_eqb _ _).
    + unfold d_map, d_bind, d_ok, d_emit, d_panic.
      destruct (get_field _ self) as [[]|]; try reflexivity;
        match goal with |- context [child_fn kebab d n ?k] => destruct (child_fn kebab d n k) as [c' [x|e|]] end;
        reflexivity.
    + unfold d_bind, d_ok. cbn [fst snd]. now rewrite put_get.
  - destruct (get_field _ self) as [x|]; [|reflexivity]. unfold d_map, d_bind, d_ok.
    destruct (ti_insert_child _ x n c) as [c' [[[|] x']|e|]]; reflexivity.
  - destruct (text_eqb _ _); [reflexivity|]. unfold d_bind, d_ok. cbn [fst snd]. now rewrite put_get.
  - destruct (text_eqb _ _).
    + unfold d_bind. cbv zeta. destruct (get_field _ self) as [[| [|] | | | | | |]|] eqn:E; try reflexivity.
      cbn [fst snd put]. rewrite set_get by exact E. reflexivity.
    + unfold d_bind, d_ok. cbn [fst snd]. now rewrite put_get.
Qed.

Lemma insert_pass n : forall ds self c, NoDup (map attr_of ds) ->
  insert_child kebab ds self n c
  = d_map (fun r : bool * list (option (dval L)) => (fst r, puts ds (snd r) self))
      (pass field_cell ds (gets ds self) n) c.
Proof.
  induction ds as [|d ds IH]; intros self c N; [reflexivity|].
  cbn [map] in N. apply NoDup_cons_iff in N. destruct N as [N N'].
  rewrite insert_cell. cbn [gets map pass]. unfold d_map, d_bind at 1 3 4.
  unfold d_bind. destruct (field_cell d (get_field (attr_of d) self) n c) as [c' [[t o]|e|]]; try reflexivity.
  cbn [fst snd]. destruct t; unfold d_ok; cbn [fst snd puts].
  - fold (gets ds self). rewrite <- (gets_put (attr_of d) o ds self N), puts_gets. reflexivity.
  - rewrite IH by exact N'. rewrite gets_put by exact N. fold (gets ds self). unfold d_map, d_bind, d_ok.
    destruct (pass field_cell ds (gets ds self) n c') as [c2 [[t s]|e|]]; reflexivity.
Qed.

Variable ds : list (child Sp L).
Hypothesis Kt : forall d, In d ds -> steady_type (f_impl (ch_field d)).
Hypothesis Kc : forall d, In d ds -> ch_mode d = CmFlatten -> commuting (ti_insert_child (f_impl (ch_field d))).

Lemma fields_steady : cells_steady field_cell ds.
Proof.
  intros d o n I. pose proof (Kt d I) as K. unfold field_cell. destruct (ch_mode d).
  - destruct (text_eqb _ _); [|apply st_ok]. apply st_bind.
    + destruct o as [[]|]; first [apply st_panic|apply st_ok|apply st_emit].
    + intros _. apply st_map. now apply st_node_fn.
  - destruct o; [|apply st_panic]. apply st_map, (sy_insert_child _ K).
  - destruct (text_eqb _ _); [apply st_panic|apply st_ok].
  - destruct (text_eqb _ _); [|apply st_ok].
    destruct o as [[| [|] | | | | | |]|];
      first [exists (flag_adds n); eexists; intros c; cbv zeta; rewrite flag_added; reflexivity
            |exists (flag_adds n ++ [duplicate_node d n]); eexists; intros c; cbv zeta;
             rewrite flag_added, <- added_added; reflexivity].
Qed.

(** What stays: whether there is a value. *)
Lemma field_there d o n e t o' : yields (field_cell d o n) e (DOk (t, o')) -> o = None <-> o' = None.
Proof.
  intros Y. specialize (Y context_new). unfold field_cell in Y. destruct (ch_mode d).
  - destruct (text_eqb _ _); [|injection Y as _ _ <-; tauto].
    destruct o as [[]|]; unfold d_map, d_bind, d_panic, d_ok, d_emit in Y; try discriminate;
      match type of Y with context [child_fn kebab d n ?k] => destruct (child_fn kebab d n k) as [c' [x|e'|]] end;
      try discriminate; apply (f_equal snd) in Y; cbn [snd] in Y; injection Y as _ <-; split; discriminate.
  - destruct o as [x|]; [|discriminate]. unfold d_map, d_bind in Y.
    destruct (ti_insert_child _ x n context_new) as [c' [[u a]|e'|]]; try discriminate.
    apply (f_equal snd) in Y; cbn [snd fst] in Y; injection Y as _ <-. split; discriminate.
  - destruct (text_eqb _ _); [discriminate|injection Y as _ _ <-; tauto].
  - destruct (text_eqb _ _); [|injection Y as _ _ <-; tauto].
    cbv zeta in Y. destruct o as [[| [|] | | | | | |]|]; apply (f_equal snd) in Y; cbn [snd] in Y; try discriminate;
      injection Y as _ <-; split; discriminate.
Qed.

Lemma fields_fit self : cells_ok field_cell (fits self) ds.
Proof.
  intros d o n e t o' I F Y. apply field_there in Y. unfold fits in *. rewrite <- Y. exact F.
Qed.

Lemma field_misses d o n : ch_mode d <> CmFlatten -> name_of n <> ch_name d ->
  field_cell d o n = d_ok (false, o).
Proof.
  intros M N. assert (E : text_eqb (name_of n) (ch_name d) = false).
  { destruct (text_eqb (name_of n) (ch_name d)) eqn:E; [|reflexivity]. apply text_eqb_spec in E. congruence. }
  unfold field_cell. rewrite E. destruct (ch_mode d); congruence.
Qed.

Lemma fields_commute self : cells_commute field_cell (fits self) ds.
Proof.
  intros d n1 n2 I Ne o e1 e2 t1 t2 o1 o2 _ Y1 Y2.
  assert (M : ch_mode d = CmFlatten \/ ch_mode d <> CmFlatten)
    by (destruct (ch_mode d); first [left; reflexivity|right; discriminate]).
  destruct M as [M|M].
  - pose proof (sy_insert_child _ (Kt d I)) as S. unfold field_cell in *. rewrite M in *.
    destruct o as [x|]; [|specialize (Y1 context_new); discriminate].
    apply yields_map_inv in Y1; [|apply S]. destruct Y1 as ([u1 x1] & Y1 & Q1).
    cbn [fst snd] in Q1. injection Q1 as -> ->.
    apply yields_map_inv in Y2; [|apply S]. destruct Y2 as ([u2 x2] & Y2 & Q2).
    cbn [fst snd] in Q2. injection Q2 as -> ->.
    destruct (Kc d I M n1 n2 Ne _ _ _ _ _ _ _ Y1 Y2) as (x' & A & B).
    exists (Some x'). split.
    + exact (yields_map _ (fun r : bool * dval L => (fst r, Some (snd r))) _ _ A).
    + exact (yields_map _ (fun r : bool * dval L => (fst r, Some (snd r))) _ _ B).
  - assert (N : name_of n1 <> ch_name d \/ name_of n2 <> ch_name d).
    { destruct (text_eqb (name_of n1) (ch_name d)) eqn:E.
      - apply text_eqb_spec in E. right. congruence.
      - left. intros Q. apply text_eqb_spec in Q. congruence. }
    destruct N as [N|N].
    + rewrite (field_misses d o n1 M N) in Y1.
      destruct (yields_same _ _ _ _ _ Y1 (yields_ok _)) as [-> Q]. injection Q as -> ->.
      exists o2. split; [exact Y2|]. rewrite (field_misses d o2 n1 M N). apply yields_ok.
    + rewrite (field_misses d o1 n2 M N) in Y2.
      destruct (yields_same _ _ _ _ _ Y2 (yields_ok _)) as [-> Q]. injection Q as -> ->.
      exists o. split; [|exact Y1]. rewrite (field_misses d o n2 M N). apply yields_ok.
Qed.

Hypothesis Nd : NoDup (map attr_of ds).

Lemma insert_inv self n e t s : yields (insert_child kebab ds self n) e (DOk (t, s)) ->
  exists os, yields (pass field_cell ds (gets ds self) n) e (DOk (t, os)) /\ s = puts ds os self
    /\ Forall2 (fits self) ds os.
Proof.
  intros Y. apply (yields_ext _ _ _ _ (fun c => insert_pass n ds self c Nd)) in Y.
  apply yields_map_inv in Y; [|apply (steady_pass field_cell (fits self)), fields_steady].
  destruct Y as ([t' os] & Y & Q). cbn [fst snd] in Q. injection Q as -> ->.
  exists os. split; [exact Y|]. split; [reflexivity|].
  exact (pass_ok _ _ _ _ _ _ _ _ fields_steady (fields_fit self) (fits_gets ds self) Y).
Qed.

Lemma insert_do self n e t os : yields (pass field_cell ds (gets ds self) n) e (DOk (t, os)) ->
  yields (insert_child kebab ds self n) e (DOk (t, puts ds os self)).
Proof.
  intros Y. eapply yields_ext; [intros c; symmetry; now apply insert_pass|].
  exact (yields_map _ (fun r : bool * list (option (dval L)) => (fst r, puts ds (snd r) self)) _ _ Y).
Qed.

Lemma insert_commutes : commuting (fun self n => insert_child kebab ds self n).
Proof.
  intros n1 n2 Ne self e1 e2 t1 t2 s1 s2 Y1 Y2.
  destruct (insert_inv _ _ _ _ _ Y1) as (os1 & P1 & -> & F1).
  destruct (insert_inv _ _ _ _ _ Y2) as (os2 & P2 & -> & _).
  rewrite (gets_puts ds os1 self Nd F1) in P2.
  pose proof (pass_ok _ _ _ _ _ _ _ _ fields_steady (fields_fit self) F1 P2) as F2.
  destruct (swap_pass _ _ n1 n2 Ne ds _ _ _ _ _ _ _ fields_steady (fields_fit self) (fields_commute self)
    (fits_gets ds self) P1 P2) as (os & W1 & W2).
  pose proof (pass_ok _ _ _ _ _ _ _ _ fields_steady (fields_fit self) (fits_gets ds self) W1) as F.
  exists (puts ds os self). split; [now apply insert_do|].
  rewrite (puts_puts ds os1 os2 self Nd F1 F2), <- (puts_puts ds os os2 self Nd F F2).
  apply insert_do. rewrite (gets_puts ds os self Nd F). exact W2.
Qed.

Lemma field_takes d o n e t o' : In d ds -> claims d (name_of n) ->
  yields (field_cell d o n) e (DOk (t, o')) -> t = true.
Proof.
  intros I C Y. pose proof (sy_insert_child _ (Kt d I)) as S. unfold claims in C. unfold field_cell in Y.
  assert (E : ch_mode d <> CmFlatten -> text_eqb (name_of n) (ch_name d) = true).
  { intros M. apply text_eqb_spec. destruct (ch_mode d); congruence. }
  destruct (ch_mode d).
  - rewrite E in Y by discriminate. specialize (Y context_new).
    destruct o as [[]|]; unfold d_map, d_bind, d_panic, d_ok, d_emit in Y; try discriminate;
      match type of Y with context [child_fn kebab d n ?k] => destruct (child_fn kebab d n k) as [c' [x|e'|]] end;
      try discriminate; apply (f_equal snd) in Y; cbn [snd] in Y; now injection Y as <- _.
  - destruct o as [x|]; [|specialize (Y context_new); discriminate].
    apply yields_map_inv in Y; [|apply S]. destruct Y as ([u x'] & Y & Q). cbn [fst snd] in Q.
    injection Q as -> _. exact (C x n e u x' eq_refl Y).
  - rewrite E in Y by discriminate. specialize (Y context_new). discriminate.
  - rewrite E in Y by discriminate. specialize (Y context_new). cbv zeta in Y.
    destruct o as [[| [|] | | | | | |]|]; apply (f_equal snd) in Y; cbn [snd] in Y; try discriminate;
      now injection Y as <- _.
Qed.

Lemma insert_takes name : Exists (fun h => claims h name) ds ->
  takes (fun self n => insert_child kebab ds self n) name.
Proof.
  intros X self n e t s <- Y. destruct (insert_inv _ _ _ _ _ Y) as (os & P & _ & _).
  exact (pass_takes field_cell (fits self) n (fun d => claims d (name_of n)) ds _ e t os fields_steady
    (fun d o e t s I _ C Y => field_takes d o n e t s I C Y) X (fits_gets ds self) P).
Qed.

End Fields.

Lemma on_self_commutes {Sp L} (g : list (access * dval L) -> snode Sp -> dec Sp (bool * list (access * dval L))) :
  (forall fs n, steady (g fs n)) -> commuting g ->
  commuting (fun self n => on_self (fun fs => g fs n) self).
Proof.
  intros S C n1 n2 Ne self e1 e2 t1 t2 s1 s2 Y1 Y2.
  assert (Q : exists id fs, self = VStruct id fs).
  { destruct self; cbn [on_self] in Y1; try (specialize (Y1 context_new); discriminate). eauto. }
  destruct Q as (id & fs & ->). cbn [on_self] in *.
  apply yields_map_inv in Y1; [|apply S]. destruct Y1 as ([u1 f1] & Y1 & Q). injection Q as -> ->.
  cbn [on_self] in Y2.
  apply yields_map_inv in Y2; [|apply S]. destruct Y2 as ([u2 f2] & Y2 & Q). injection Q as -> ->.
  destruct (C n1 n2 Ne _ _ _ _ _ _ _ Y1 Y2) as (f & A & B).
  exists (VStruct id f). cbn [on_self]. split.
  - exact (yields_map _ (fun '(b, fs') => (b, VStruct id fs')) _ _ A).
  - exact (yields_map _ (fun '(b, fs') => (b, VStruct id fs')) _ _ B).
Qed.

Lemma on_self_takes {Sp L} (g : list (access * dval L) -> snode Sp -> dec Sp (bool * list (access * dval L))) name :
  (forall fs n, steady (g fs n)) -> takes g name ->
  takes (fun self n => on_self (fun fs => g fs n) self) name.
Proof.
  intros S C self n e t s E Y.
  destruct self as [| | | | | |id fs|]; cbn [on_self] in Y; try (specialize (Y context_new); discriminate).
  apply yields_map_inv in Y; [|apply S]. destruct Y as ([u f1] & Y & Q). injection Q as -> _.
  exact (C fs n e u f1 E Y).
Qed.

Lemma NoDup_right {A} (l l' : list A) : NoDup (l ++ l') -> NoDup l'.
Proof. induction l as [|a l IH]; cbn [app]; auto. intros H. inversion H. auto. Qed.

Lemma NoDup_left {A} (l l' : list A) : NoDup (l ++ l') -> NoDup l.
Proof.
  induction l as [|a l IH]; cbn [app]; intros H; constructor; inversion H as [|? ? N D]; subst; auto.
  intros I. apply N, in_or_app. now left.
Qed.

(** A derived struct that can be flattened. *)
Lemma derived_commutes {Sp L} kebab named ident cont (fs : list (src_field Sp L)) d :
  derives_struct kebab named ident cont fs d ->
  Forall (fun f => steady_type (sf_impl f)) fs -> flat_commute kebab fs ->
  forall f, dr_insert_child d = Some f ->
  commuting f /\ forall name, has_field kebab fs name -> takes f name.
Proof.
  intros (Hd & Pr & Nn) St Fl f E.
  destruct (derived_struct kebab _ _ _ _ _ Hd Pr Nn) as (s & S & Em).
  pose proof (struct_new_steady kebab _ _ _ _ S St) as Ss.
  pose proof (proj1 (struct_new_filed kebab ident fs s S)) as F.
  pose proof (proper_distinct kebab named ident fs s S Pr) as Nd.
  pose proof (steady_parts s Ss) as (_ & _ & _ & _ & _ & K1 & _).
  unfold has_field, flat_commute, the_children in *. rewrite <- (fi_children _ _ _ _ F) in *.
  rewrite Forall_forall in Fl.
  assert (N : NoDup (map attr_of (st_children s))).
  { unfold all_fields in Nd. rewrite !map_app in Nd. do 7 apply NoDup_right in Nd.
    apply NoDup_left in Nd. rewrite map_map in Nd. exact Nd. }
  unfold emit_struct in Em.
  destruct ((named || tuple_ok s) && unwraps_compile kebab s); [|discriminate].
  injection Em as <-. cbn [dr_insert_child] in E. destruct (partial_compatible s); [|discriminate].
  injection E as <-.
  assert (Si : forall l n, steady (insert_child kebab (st_children s) l n)) by (intros; now apply st_insert_child).
  split.
  - apply (on_self_commutes (fun self n => insert_child kebab (st_children s) self n)); [exact Si|].
    now apply insert_commutes.
  - intros name X. apply (on_self_takes (fun self n => insert_child kebab (st_children s) self n)); [exact Si|].
    now apply insert_takes.
Qed.
