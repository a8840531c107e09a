(** Children of different fields may change places. *)

From Coq Require Import NArith List Bool String Lia Permutation.
From Verif Require Import Chars Ast Errors Kdl Decode Scalar Containers DecodeSpec DecodeProps
  DeriveDef Derive DeriveSpec DeriveProps FieldSpec FieldProps StructSpec StructProps HandSpec
  LexIdent Chumsky SteadySpec SteadyProps.
Import ListNotations.
Local Open Scope list_scope.

(** ** What a decoder yields *)

Section Yields.
Context {Sp : Type}.

Lemma added_inj es es' (c : context Sp) : added es c = added es' c -> es = es'.
Proof. unfold added. intros H. injection H as H. now apply app_inv_head in H. Qed.

Lemma yields_ok {A} (a : A) : yields (Sp := Sp) (d_ok a) [] (DOk a).
Proof. intros c. now rewrite added_nil. Qed.

Lemma yields_same {A} (m : dec Sp A) es r es' r' : yields m es r -> yields m es' r' ->
  es = es' /\ r = r'.
Proof.
  intros H H'. pose proof (H context_new) as E. rewrite (H' context_new) in E.
  injection E as E <-. apply (app_inv_head (c_errors context_new)) in E. auto.
Qed.

Lemma steady_yields {A} (m : dec Sp A) c c' r : steady m -> m c = (c', r) ->
  exists es, yields m es r /\ c' = added es c.
Proof.
  intros (es & r' & Y) H. rewrite Y in H. injection H as <- <-. exists es. auto.
Qed.

Lemma yields_bind {A B} (m : dec Sp A) (f : A -> dec Sp B) e1 a e2 r :
  yields m e1 (DOk a) -> yields (f a) e2 r -> yields (d_bind m f) (e1 ++ e2) r.
Proof. intros M F c. unfold d_bind. rewrite M, F, added_added. reflexivity. Qed.

Lemma yields_bind_inv {A B} (m : dec Sp A) (f : A -> dec Sp B) es b :
  steady m -> (forall a, steady (f a)) -> yields (d_bind m f) es (DOk b) ->
  exists e1 e2 a, yields m e1 (DOk a) /\ yields (f a) e2 (DOk b) /\ es = e1 ++ e2.
Proof.
  intros (e1 & r & M) F H. pose proof (H context_new) as E. unfold d_bind in E. rewrite M in E.
  destruct r as [a|e|]; [|discriminate|discriminate].
  destruct (F a) as (e2 & r & Y). exists e1, e2, a. pose proof (yields_bind m f e1 a e2 r M Y) as K.
  destruct (yields_same _ _ _ _ _ H K) as [-> <-]. auto.
Qed.

Lemma yields_map {A B} (m : dec Sp A) (f : A -> B) es a :
  yields m es (DOk a) -> yields (d_map f m) es (DOk (f a)).
Proof. intros M c. unfold d_map, d_bind. rewrite M. reflexivity. Qed.

Lemma yields_map_inv {A B} (m : dec Sp A) (f : A -> B) es b :
  steady m -> yields (d_map f m) es (DOk b) -> exists a, yields m es (DOk a) /\ b = f a.
Proof.
  intros (e1 & r & M) H. pose proof (H context_new) as E. unfold d_map, d_bind in E. rewrite M in E.
  destruct r as [a|e|]; [|discriminate|discriminate].
  pose proof (yields_map m f e1 a M) as K.
  destruct (yields_same _ _ _ _ _ H K) as [-> K2]. injection K2 as ->. exists a. auto.
Qed.

Lemma yields_ext {A} (m m' : dec Sp A) es r : (forall c, m c = m' c) -> yields m es r -> yields m' es r.
Proof. intros E H c. rewrite <- E. apply H. Qed.

(** ** Lists in another order *)

Section Keys.
Context {A : Type} (same : A -> A -> Prop).

Inductive swapped : list A -> list A -> Prop :=
| swapped_nil : swapped [] []
| swapped_skip x l l' : swapped l l' -> swapped (x :: l) (x :: l')
| swapped_swap x y l : ~ same x y -> swapped (x :: y :: l) (y :: x :: l)
| swapped_trans l1 l2 l3 : swapped l1 l2 -> swapped l2 l3 -> swapped l1 l3.

Lemma swapped_refl l : swapped l l.
Proof. induction l; constructor; auto. Qed.

Lemma swapped_front x a b : Forall (fun y => ~ same x y) a -> swapped (x :: a ++ b) (a ++ x :: b).
Proof.
  induction 1 as [|y a N _ IH]; cbn [app]; [apply swapped_refl|].
  eapply swapped_trans; [apply swapped_swap; exact N|]. now constructor.
Qed.

End Keys.

Lemma filter_front {A} (p : A -> bool) x l' : forall l, filter p l = x :: l' ->
  exists a b, l = a ++ x :: b /\ Forall (fun y => p y = false) a /\ filter p b = l'.
Proof.
  induction l as [|y l IH]; cbn [filter]; [discriminate|]. destruct (p y) eqn:P.
  - intros H. injection H as <- <-. exists [], l. auto.
  - intros H. destruct (IH H) as (a & b & -> & F & E). exists (y :: a), b. auto.
Qed.

Lemma filter_none {A} (p : A -> bool) l : Forall (fun y => p y = false) l -> filter p l = [].
Proof. induction 1 as [|x l E _ IH]; cbn [filter]; [reflexivity|]. now rewrite E. Qed.

(** The field that a node is for. *)
Definition key (names : list text) (n : snode Sp) : option text :=
  if existsb (text_eqb (name_of n)) names then Some (name_of n) else None.

Definition is_key (names : list text) (k : option text) (n : snode Sp) : bool :=
  match k, key names n with
  | Some a, Some b => text_eqb b a
  | None, None => true
  | _, _ => false
  end.

Lemma is_key_key names k n : is_key names k n = true <-> key names n = k.
Proof.
  unfold is_key. destruct k as [a|], (key names n) as [b|]; try (split; congruence).
  rewrite text_eqb_spec. split; congruence.
Qed.

Definition keyed (names : list text) (ns ns' : list (snode Sp)) : Prop :=
  forall k, filter (is_key names k) ns = filter (is_key names k) ns'.

Lemma keyed_swapped names : forall ns ns', keyed names ns ns' ->
  swapped (fun x y => key names x = key names y) ns ns'.
Proof.
  induction ns as [|n ns IH]; intros ns' H.
  - destruct ns' as [|m ns']; [constructor|]. specialize (H (key names m)). cbn [filter] in H.
    rewrite (proj2 (is_key_key names (key names m) m) eq_refl) in H. discriminate.
  - pose proof (H (key names n)) as E. cbn [filter] in E.
    rewrite (proj2 (is_key_key names (key names n) n) eq_refl) in E. symmetry in E.
    destruct (filter_front _ _ _ _ E) as (a & b & -> & F & Eb).
    eapply swapped_trans; [|apply swapped_front].
    + constructor. apply IH. intros k. specialize (H k). rewrite filter_app in H. cbn [filter] in H.
      rewrite filter_app. destruct (is_key names k n) eqn:K; [|exact H].
      apply is_key_key in K. subst k. rewrite (filter_none _ a F) in *. cbn [app] in *.
      injection H as H. exact H.
    + revert F. apply Forall_impl. intros y F Q. symmetry in Q. apply is_key_key in Q. congruence.
Qed.

Lemma reordered_keyed names ns ns' : reordered names ns ns' -> keyed names ns ns'.
Proof.
  intros [H1 H2] [t|].
  - assert (D : {In t names} + {~ In t names}).
    { apply in_dec. intros x y. destruct (text_eqb x y) eqn:E; [left|right].
      - now apply text_eqb_spec.
      - intros ->. assert (text_eqb y y = true) by now apply text_eqb_spec. congruence. }
    assert (X : forall n : snode Sp, existsb (text_eqb (name_of n)) names = true <-> In (name_of n) names).
    { intros n. rewrite existsb_exists. split.
      - intros (x & I & E). apply text_eqb_spec in E. congruence.
      - intros I. exists (name_of n). split; [exact I|now apply text_eqb_spec]. }
    destruct D as [D|D].
    + specialize (H1 t D). unfold named_nodes in H1.
      assert (Q : forall n, is_key names (Some t) n = text_eqb (name_of n) t).
      { intros n. unfold is_key, key. destruct (existsb _ names) eqn:E; [reflexivity|].
        destruct (text_eqb (name_of n) t) eqn:T; [|reflexivity]. apply text_eqb_spec in T.
        assert (existsb (text_eqb (name_of n)) names = true) by (apply X; congruence). congruence. }
      rewrite (filter_ext _ _ Q ns), (filter_ext _ _ Q ns'). exact H1.
    + assert (Q : forall n, is_key names (Some t) n = false).
      { intros n. unfold is_key, key. destruct (existsb _ names) eqn:E; [|reflexivity].
        destruct (text_eqb (name_of n) t) eqn:T; [|reflexivity]. apply text_eqb_spec in T.
        apply X in E. congruence. }
      rewrite !filter_none; [reflexivity| |]; apply Forall_forall; auto.
  - assert (Q : forall n, is_key names None n = negb (existsb (text_eqb (name_of n)) names)).
    { intros n. unfold is_key, key. destruct (existsb _ names); reflexivity. }
    rewrite (filter_ext _ _ Q ns), (filter_ext _ _ Q ns'). exact H2.
Qed.

End Yields.

(** ** A list of cells, each offered the node in turn *)

Section Cells.
Context {Sp D X : Type} (cell : D -> X -> snode Sp -> dec Sp (bool * X)) (ok : D -> X -> Prop).

Fixpoint pass (ds : list D) (xs : list X) (n : snode Sp) : dec Sp (bool * list X) :=
  match ds, xs with
  | d :: ds', x :: xs' =>
      d_bind (cell d x n) (fun r =>
      if fst r then d_ok (true, snd r :: xs')
      else d_map (fun q => (fst q, snd r :: snd q)) (pass ds' xs' n))
  | _, _ => d_ok (false, xs)
  end.

Definition cells_steady (ds : list D) : Prop := forall d x n, In d ds -> steady (cell d x n).
Definition cells_ok (ds : list D) : Prop := forall d x n e t x', In d ds -> ok d x ->
  yields (cell d x n) e (DOk (t, x')) -> ok d x'.
Definition cells_commute (ds : list D) : Prop := forall d n1 n2, In d ds -> name_of n1 <> name_of n2 ->
  forall x e1 e2 t1 t2 x1 x2, ok d x ->
  yields (cell d x n1) e1 (DOk (t1, x1)) -> yields (cell d x1 n2) e2 (DOk (t2, x2)) ->
  exists x', yields (cell d x n2) e2 (DOk (t2, x')) /\ yields (cell d x' n1) e1 (DOk (t1, x2)).

Lemma cells_tail d ds : (cells_steady (d :: ds) -> cells_steady ds)
  /\ (cells_ok (d :: ds) -> cells_ok ds) /\ (cells_commute (d :: ds) -> cells_commute ds).
Proof.
  repeat split; intros H.
  - intros h x n I. apply H. now right.
  - intros h x n e t x' I. apply H. now right.
  - intros h n1 n2 I. apply H. now right.
Qed.

Lemma steady_pass n : forall ds, cells_steady ds -> forall xs, steady (pass ds xs n).
Proof.
  induction ds as [|d ds IH]; intros H xs; [apply st_ok|]. destruct xs as [|x xs]; [apply st_ok|].
  cbn [pass]. apply st_bind; [apply H; now left|]. intros [[|] x']; cbn [fst snd]; [apply st_ok|].
  apply st_map, IH. now apply (cells_tail d ds).
Qed.

Lemma pass_inv n d ds x xs es t s : cells_steady (d :: ds) ->
  yields (pass (d :: ds) (x :: xs) n) es (DOk (t, s)) ->
  exists e x', (yields (cell d x n) e (DOk (true, x')) /\ t = true /\ s = x' :: xs /\ es = e)
    \/ (exists e' s', yields (cell d x n) e (DOk (false, x'))
        /\ yields (pass ds xs n) e' (DOk (t, s')) /\ s = x' :: s' /\ es = e ++ e').
Proof.
  intros H Y. cbn [pass] in Y. assert (H' : cells_steady ds) by now apply (cells_tail d ds).
  apply yields_bind_inv in Y.
  - destruct Y as (e & e' & [[|] x'] & Y1 & Y2 & ->); cbn [fst snd] in Y2; exists e, x'.
    + left. destruct (yields_same _ _ _ _ _ Y2 (yields_ok _)) as [-> Q]. injection Q as -> ->.
      rewrite app_nil_r. auto.
    + right. apply yields_map_inv in Y2; [|now apply steady_pass].
      destruct Y2 as ([t' s'] & Y2 & Q). cbn [fst snd] in Q. injection Q as -> ->.
      exists e', s'. auto.
  - apply H. now left.
  - intros [[|] x']; cbn [fst snd]; [apply st_ok|apply st_map, steady_pass, H'].
Qed.

Lemma pass_here n d ds x xs e x' : yields (cell d x n) e (DOk (true, x')) ->
  yields (pass (d :: ds) (x :: xs) n) e (DOk (true, x' :: xs)).
Proof.
  intros Y. cbn [pass]. rewrite <- (app_nil_r e). eapply yields_bind; [exact Y|]. cbn [fst snd].
  apply yields_ok.
Qed.

Lemma pass_there n d ds x xs e e' t x' s : yields (cell d x n) e (DOk (false, x')) ->
  yields (pass ds xs n) e' (DOk (t, s)) ->
  yields (pass (d :: ds) (x :: xs) n) (e ++ e') (DOk (t, x' :: s)).
Proof.
  intros Y Y'. cbn [pass]. eapply yields_bind; [exact Y|]. cbn [fst snd].
  exact (yields_map _ (fun q : bool * list X => (fst q, x' :: snd q)) _ _ Y').
Qed.

Lemma pass_ok n : forall ds xs es t s, cells_steady ds -> cells_ok ds -> Forall2 ok ds xs ->
  yields (pass ds xs n) es (DOk (t, s)) -> Forall2 ok ds s.
Proof.
  induction ds as [|d ds IH]; intros xs es t s H K F Y; inversion F as [|? x ? xs' O F']; subst.
  - destruct (yields_same _ _ _ _ _ Y (yields_ok _)) as [_ Q]. injection Q as -> ->. constructor.
  - assert (T := cells_tail d ds). destruct (pass_inv _ _ _ _ _ _ _ _ H Y)
      as (e & x' & [(Y1 & -> & -> & ->)|(e' & s' & Y1 & Y2 & -> & ->)]).
    + constructor; [|exact F']. eapply K; eauto. now left.
    + constructor; [eapply K; eauto; now left|]. eapply IH; [now apply T|now apply T|exact F'|exact Y2].
Qed.

Lemma pass_takes n (P : D -> Prop) : forall ds xs e t s, cells_steady ds ->
  (forall d x e t x', In d ds -> ok d x -> P d -> yields (cell d x n) e (DOk (t, x')) -> t = true) ->
  Exists P ds -> Forall2 ok ds xs -> yields (pass ds xs n) e (DOk (t, s)) -> t = true.
Proof.
  induction ds as [|d ds IH]; intros xs e t s H T Z F Y; [inversion Z|].
  inversion F as [|? x ? xs' O F']; subst.
  destruct (pass_inv _ _ _ _ _ _ _ _ H Y) as (e1 & x' & [(Y1 & -> & _)|(e' & s' & Y1 & Y2 & -> & ->)]);
    [reflexivity|].
  inversion Z as [? ? P0|? ? Z']; subst.
  - pose proof (T d x _ _ _ (or_introl eq_refl) O P0 Y1). discriminate.
  - apply (IH xs' e' t s'); auto; [now apply (cells_tail d ds)|].
    intros h y f u y' I. apply T. now right.
Qed.

Lemma swap_pass n1 n2 : name_of n1 <> name_of n2 -> forall ds xs e1 e2 t1 t2 s1 s2,
  cells_steady ds -> cells_ok ds -> cells_commute ds -> Forall2 ok ds xs ->
  yields (pass ds xs n1) e1 (DOk (t1, s1)) -> yields (pass ds s1 n2) e2 (DOk (t2, s2)) ->
  exists s, yields (pass ds xs n2) e2 (DOk (t2, s)) /\ yields (pass ds s n1) e1 (DOk (t1, s2)).
Proof.
  intros Ne. induction ds as [|d ds IH]; intros xs e1 e2 t1 t2 s1 s2 H K C F Y1 Y2;
    inversion F as [|? x ? xs' O F']; subst.
  - destruct (yields_same _ _ _ _ _ Y1 (yields_ok _)) as [-> Q]. injection Q as -> ->.
    destruct (yields_same _ _ _ _ _ Y2 (yields_ok _)) as [-> Q]. injection Q as -> ->.
    exists []. split; apply yields_ok.
  - assert (T := cells_tail d ds). assert (I : In d (d :: ds)) by now left.
    destruct (pass_inv _ _ _ _ _ _ _ _ H Y1)
      as (e & x1 & [(A1 & -> & -> & ->)|(f & s1' & A1 & A2 & -> & ->)]);
    destruct (pass_inv _ _ _ _ _ _ _ _ H Y2)
      as (g & x2 & [(B1 & -> & -> & ->)|(h & s2' & B1 & B2 & -> & ->)]);
    destruct (C d n1 n2 I Ne _ _ _ _ _ _ _ O A1 B1) as (x' & G1 & G2).
    + exists (x' :: xs'). split; now apply pass_here.
    + exists (x' :: s2'). split; [now apply pass_there|now apply pass_here].
    + exists (x' :: xs'). split; [now apply pass_here|now apply pass_there].
    + destruct (IH _ _ _ _ _ _ _ (proj1 T H) (proj1 (proj2 T) K) (proj2 (proj2 T) C) F' A2 B2)
        as (s & W1 & W2).
      exists (x' :: s). split; now apply pass_there.
Qed.

End Cells.

(** ** Two children *)

Section Loop.
Context {Sp L : Type}.
Variable dn : child Sp L -> node_impl Sp (dval L).

Definition slot_fits (d : child Sp L) (sl : child_slot L) : Prop :=
  match sl with CFlat _ => ch_mode d = CmFlatten | _ => ch_mode d <> CmFlatten end.

Definition slot_cell (d : child Sp L) (sl : child_slot L) (n : snode Sp) : dec Sp (bool * child_slot L) :=
  match sl with
  | CFlat x => d_map (fun r : bool * dval L => (fst r, CFlat (snd r))) (ti_insert_child (f_impl (ch_field d)) x n)
  | _ =>
      if text_eqb (name_of n) (ch_name d) then
        match sl with
        | CMulti xs => d_map (fun x => (true, CMulti (xs ++ [x]))) (dn d n)
        | CNormal (Some _) => d_err (duplicate_node d n)
        | CNormal None => d_map (fun x => (true, CNormal (Some x))) (dn d n)
        | CBool b => fun c =>
            let c' := check_flag_node n c in
            if b then (emit_error (duplicate_node d n) c', DOk (true, CBool b))
            else (c', DOk (true, CBool true))
        | CFlat _ => d_panic
        end
      else d_ok (false, sl)
  end.

Lemma branches_pass n : forall ds slots c,
  child_branches dn ds slots n c = pass slot_cell ds slots n c.
Proof.
  induction ds as [|d ds IH]; intros slots c; [reflexivity|].
  destruct slots as [|sl slots]; [reflexivity|]. cbn [child_branches pass].
  destruct sl as [x|xs|x|b]; cbn [slot_cell].
  - unfold d_map, d_bind. destruct (ti_insert_child _ x n c) as [c' [[[|] x']|e|]]; try reflexivity.
    unfold d_ok. cbn [fst snd]. rewrite IH. destruct (pass slot_cell ds slots n c') as [c2 [[t s]|e|]]; reflexivity.
  - unfold name_of. destruct (text_eqb _ _).
    + unfold d_map, d_bind. destruct (dn d n c) as [c' [a|e|]]; reflexivity.
    + unfold d_map, d_bind, d_ok. cbn [fst snd]. rewrite IH.
      destruct (pass slot_cell ds slots n c) as [c2 [[t s]|e|]]; reflexivity.
  - unfold name_of. destruct (text_eqb _ _).
    + destruct x; [reflexivity|].
      unfold d_map, d_bind. destruct (dn d n c) as [c' [a|e|]]; reflexivity.
    + unfold d_map, d_bind, d_ok. cbn [fst snd]. rewrite IH.
      destruct (pass slot_cell ds slots n c) as [c2 [[t s]|e|]]; reflexivity.
  - unfold name_of. destruct (text_eqb _ _).
    + unfold d_bind. destruct b; reflexivity.
    + unfold d_map, d_bind, d_ok. cbn [fst snd]. rewrite IH.
      destruct (pass slot_cell ds slots n c) as [c2 [[t s]|e|]]; reflexivity.
Qed.

Variable dv : option (node_impl Sp (dval L)).
Variable ds : list (child Sp L).
Hypothesis Kt : forall d, In d ds -> steady_type (f_impl (ch_field d)).
Hypothesis Kn : forall d n, In d ds -> steady (dn d n).
Hypothesis Kv : forall f n, dv = Some f -> steady (f n).
Hypothesis Kc : forall d, In d ds -> ch_mode d = CmFlatten -> commuting (ti_insert_child (f_impl (ch_field d))).

Lemma slots_steady : cells_steady slot_cell ds.
Proof.
  intros d sl n I. destruct sl as [x|xs|x|b]; cbn [slot_cell].
  - apply st_map, (sy_insert_child _ (Kt d I)).
  - destruct (text_eqb _ _); [apply st_map; auto|apply st_ok].
  - destruct (text_eqb _ _); [|apply st_ok]. destruct x; [apply st_err|apply st_map; auto].
  - destruct (text_eqb _ _); [|apply st_ok]. destruct b.
    + exists (flag_adds n ++ [duplicate_node d n]). eexists. intros c. cbv zeta.
      rewrite flag_added, <- added_added. reflexivity.
    + exists (flag_adds n). eexists. intros c. cbv zeta. rewrite flag_added. reflexivity.
Qed.

Lemma slots_fit : cells_ok slot_cell slot_fits ds.
Proof.
  intros d sl n e t sl' I F Y. specialize (Y context_new).
  destruct sl as [x|xs|x|b]; cbn [slot_cell slot_fits] in *; unfold d_map, d_bind in Y.
  - destruct (ti_insert_child _ x n context_new) as [c' [[u a]|e'|]]; try discriminate.
    injection Y as _ _ <-. exact F.
  - destruct (text_eqb _ _); [|injection Y as _ _ <-; exact F].
    destruct (dn d n context_new) as [c' [a|e'|]]; try discriminate. injection Y as _ _ <-. exact F.
  - destruct (text_eqb _ _); [|injection Y as _ _ <-; exact F]. destruct x; [discriminate|].
    destruct (dn d n context_new) as [c' [a|e'|]]; try discriminate. injection Y as _ _ <-. exact F.
  - destruct (text_eqb _ _); [|injection Y as _ _ <-; exact F].
    cbv zeta in Y. destruct b; apply (f_equal snd) in Y; cbn [snd] in Y; injection Y as _ <-; exact F.
Qed.

(** A node of another name leaves the cell as it is. *)
Lemma slot_misses d sl n : slot_fits d sl -> ch_mode d <> CmFlatten -> name_of n <> ch_name d ->
  slot_cell d sl n = d_ok (false, sl).
Proof.
  intros F M N. assert (E : text_eqb (name_of n) (ch_name d) = false).
  { destruct (text_eqb (name_of n) (ch_name d)) eqn:E; [|reflexivity]. apply text_eqb_spec in E. congruence. }
  destruct sl; cbn [slot_cell slot_fits] in *; rewrite ?E; [congruence|reflexivity..].
Qed.

Lemma slots_commute : cells_commute slot_cell slot_fits ds.
Proof.
  intros d n1 n2 I Ne sl e1 e2 t1 t2 s1 s2 F Y1 Y2.
  assert (M : ch_mode d = CmFlatten \/ ch_mode d <> CmFlatten)
    by (destruct (ch_mode d); first [left; reflexivity|right; discriminate]).
  destruct M as [M|M].
  - pose proof (sy_insert_child _ (Kt d I)) as S.
    destruct sl as [x|xs|x|b]; cbn [slot_fits] in F; try congruence. cbn [slot_cell] in Y1.
    apply yields_map_inv in Y1; [|apply S]. destruct Y1 as ([u1 x1] & Y1 & Q1).
    cbn [fst snd] in Q1. injection Q1 as -> ->. cbn [slot_cell] in Y2.
    apply yields_map_inv in Y2; [|apply S]. destruct Y2 as ([u2 x2] & Y2 & Q2).
    cbn [fst snd] in Q2. injection Q2 as -> ->.
    destruct (Kc d I F n1 n2 Ne _ _ _ _ _ _ _ Y1 Y2) as (x' & A & B).
    exists (CFlat x'). split; cbn [slot_cell].
    + exact (yields_map _ (fun r : bool * dval L => (fst r, CFlat (snd r))) _ _ A).
    + exact (yields_map _ (fun r : bool * dval L => (fst r, CFlat (snd r))) _ _ B).
  - pose proof (slots_fit d sl n1 _ _ _ I F Y1) as F1.
    assert (N : name_of n1 <> ch_name d \/ name_of n2 <> ch_name d).
    { destruct (text_eqb (name_of n1) (ch_name d)) eqn:E.
      - apply text_eqb_spec in E. right. congruence.
      - left. intros Q. apply text_eqb_spec in Q. congruence. }
    destruct N as [N|N].
    + rewrite (slot_misses d sl n1 F M N) in Y1.
      destruct (yields_same _ _ _ _ _ Y1 (yields_ok _)) as [-> Q]. injection Q as -> ->.
      exists s2. split; [exact Y2|]. pose proof (slots_fit d sl n2 _ _ _ I F Y2) as F2.
      rewrite (slot_misses d s2 n1 F2 M N). apply yields_ok.
    + rewrite (slot_misses d s1 n2 F1 M N) in Y2.
      destruct (yields_same _ _ _ _ _ Y2 (yields_ok _)) as [-> Q]. injection Q as -> ->.
      exists sl. split; [|exact Y1]. rewrite (slot_misses d sl n2 F M N). apply yields_ok.
Qed.

(** A node with the name of a field is taken. *)
Lemma slot_takes d sl n e t s : In d ds -> slot_fits d sl -> claims d (name_of n) ->
  yields (slot_cell d sl n) e (DOk (t, s)) -> t = true.
Proof.
  intros I F C Y. unfold claims in C.
  assert (M : ch_mode d = CmFlatten \/ ch_mode d <> CmFlatten)
    by (destruct (ch_mode d); first [left; reflexivity|right; discriminate]).
  destruct M as [M|M].
  - rewrite M in C. destruct sl as [x|xs|x|b]; cbn [slot_fits] in F; try congruence. cbn [slot_cell] in Y.
    apply yields_map_inv in Y; [|apply (sy_insert_child _ (Kt d I))].
    destruct Y as ([u x'] & Y & Q). cbn [fst snd] in Q. injection Q as -> _.
    exact (C x n e u x' eq_refl Y).
  - assert (E : text_eqb (name_of n) (ch_name d) = true).
    { apply text_eqb_spec. destruct (ch_mode d); congruence. }
    specialize (Y context_new).
    destruct sl as [x|xs|x|b]; cbn [slot_cell slot_fits] in *; [congruence| | |]; rewrite E in Y;
      unfold d_map, d_bind in Y.
    + destruct (dn d n context_new) as [c' [a|e'|]]; try discriminate. now injection Y as _ <- _.
    + destruct x; [discriminate|].
      destruct (dn d n context_new) as [c' [a|e'|]]; try discriminate. now injection Y as _ <- _.
    + cbv zeta in Y. destruct b; apply (f_equal snd) in Y; cbn [snd] in Y; now injection Y as <- _.
Qed.

Variable names : list text.
Hypothesis Hn : Forall (fun name => Exists (fun h => claims h name) ds) names.

(** ** The loop *)

Definition good (slots : list (child_slot L)) : Prop := Forall2 slot_fits ds slots.

Lemma slots_take n slots e t s : good slots -> yields (pass slot_cell ds slots n) e (DOk (t, s)) ->
  existsb (text_eqb (name_of n)) names = true -> t = true.
Proof.
  intros G Y X. apply existsb_exists in X. destruct X as (x & I & X). apply text_eqb_spec in X. subst x.
  rewrite Forall_forall in Hn.
  exact (pass_takes slot_cell slot_fits n (fun d => claims d (name_of n)) ds slots e t s slots_steady
    (fun d sl e t s I F C Y => slot_takes d sl n e t s I F C Y) (Hn _ I) G Y).
Qed.

(** One node. *)
Definition rest_of (t : bool) (rest : list (dval L)) (n : snode Sp) : dec Sp (list (dval L)) :=
  if t then d_ok rest
  else match dv with
       | Some d => d_map (fun x => rest ++ [x]) (d n)
       | None => d_map (fun _ => rest) (d_emit (unexpected_node n))
       end.

Lemma steady_rest t rest n : steady (rest_of t rest n).
Proof.
  unfold rest_of. destruct t; [apply st_ok|]. destruct dv; apply st_map; [now apply Kv|apply st_emit].
Qed.

Lemma loop_cons slots rest n ns c :
  child_loop dn dv ds slots rest (n :: ns) c
  = d_bind (pass slot_cell ds slots n) (fun r =>
    d_bind (rest_of (fst r) rest n) (fun rest' => child_loop dn dv ds (snd r) rest' ns)) c.
Proof.
  cbn [child_loop]. unfold d_bind, rest_of. rewrite branches_pass.
  destruct (pass slot_cell ds slots n c) as [c' [[t s]|e|]]; [|reflexivity|reflexivity].
  cbn [fst snd]. destruct t; [reflexivity|].
  destruct dv as [f|]; unfold d_map, d_bind, d_ok.
  - destruct (f n c') as [c2 [a|e|]]; reflexivity.
  - reflexivity.
Qed.

Lemma steady_loop ns : forall slots rest, steady (child_loop dn dv ds slots rest ns).
Proof.
  induction ns as [|n ns IH]; intros slots rest; [apply st_ok|].
  assert (S : steady (d_bind (pass slot_cell ds slots n) (fun r =>
    d_bind (rest_of (fst r) rest n) (fun rest' => child_loop dn dv ds (snd r) rest' ns)))).
  { apply st_bind; [apply (steady_pass slot_cell slot_fits), slots_steady|]. intros r. apply st_bind; [apply steady_rest|]. auto. }
  destruct S as (es & r & Y). exists es, r. intros c. rewrite loop_cons. apply Y.
Qed.

Lemma loop_inv slots rest n ns es r : good slots ->
  yields (child_loop dn dv ds slots rest (n :: ns)) es (DOk r) ->
  exists e1 e2 e3 t s rest', yields (pass slot_cell ds slots n) e1 (DOk (t, s)) /\ good s
    /\ (existsb (text_eqb (name_of n)) names = true -> t = true)
    /\ yields (rest_of t rest n) e2 (DOk rest')
    /\ yields (child_loop dn dv ds s rest' ns) e3 (DOk r) /\ es = e1 ++ e2 ++ e3.
Proof.
  intros G H. apply (yields_ext _ _ _ _ (loop_cons slots rest n ns)) in H.
  apply yields_bind_inv in H; [|apply (steady_pass slot_cell slot_fits), slots_steady|
    intros q; apply st_bind; [apply steady_rest|intros; apply steady_loop]].
  destruct H as (e1 & e' & [t s] & Y1 & Y & ->). cbn [fst snd] in Y.
  apply yields_bind_inv in Y; [|apply steady_rest|intros; apply steady_loop].
  destruct Y as (e2 & e3 & rest' & Y2 & Y3 & ->).
  exists e1, e2, e3, t, s, rest'. split; [exact Y1|].
  split; [exact (pass_ok _ _ _ _ _ _ _ _ slots_steady slots_fit G Y1)|].
  split; [exact (slots_take _ _ _ _ _ G Y1)|]. auto.
Qed.

Lemma loop_do slots rest n ns e1 e2 e3 t s rest' r :
  yields (pass slot_cell ds slots n) e1 (DOk (t, s)) ->
  yields (rest_of t rest n) e2 (DOk rest') ->
  yields (child_loop dn dv ds s rest' ns) e3 r ->
  yields (child_loop dn dv ds slots rest (n :: ns)) (e1 ++ e2 ++ e3) r.
Proof.
  intros Y Y2 Y3. eapply yields_ext; [intros c; symmetry; apply loop_cons|].
  eapply yields_bind; [exact Y|]. eapply yields_bind; [exact Y2|exact Y3].
Qed.

Lemma swap_loop ns ns' : swapped (fun x y => key names x = key names y) ns ns' ->
  forall slots rest es r, good slots ->
  yields (child_loop dn dv ds slots rest ns) es (DOk r) ->
  exists es', yields (child_loop dn dv ds slots rest ns') es' (DOk r) /\ Permutation es es'.
Proof.
  induction 1 as [|n ns ns' _ IH|n1 n2 ns D|ns1 ns2 ns3 _ IH1 _ IH2]; intros slots rest es r G H.
  - exists es. split; [exact H|reflexivity].
  - destruct (loop_inv _ _ _ _ _ _ G H) as (e1 & e2 & e3 & t & s & rest' & Y1 & G' & _ & Y2 & Y3 & ->).
    destruct (IH s rest' e3 r G' Y3) as (e3' & Y3' & P).
    exists (e1 ++ e2 ++ e3'). split; [now apply (loop_do slots rest n ns' e1 e2 e3' t s rest')|].
    now apply Permutation_app_head, Permutation_app_head.
  - destruct (loop_inv _ _ _ _ _ _ G H) as (e1 & e2 & e3 & t & s & rest' & Y1 & G' & T & Y2 & Y3 & ->).
    destruct (loop_inv _ _ _ _ _ _ G' Y3) as (f1 & f2 & f3 & u & s' & rest'' & Z1 & _ & U & Z2 & Z3 & ->).
    assert (Ne : name_of n1 <> name_of n2 /\ (t = true \/ u = true)).
    { unfold key in D. split.
      - intros E. apply D. now rewrite E.
      - destruct (existsb (text_eqb (name_of n1)) names); auto.
        destruct (existsb (text_eqb (name_of n2)) names); auto. }
    destruct Ne as [Ne O].
    destruct (swap_pass _ _ n1 n2 Ne ds slots e1 f1 t u s s' slots_steady slots_fit slots_commute G Y1 Z1)
      as (s1 & W1 & W2).
    assert (R : exists q, yields (rest_of u rest n2) f2 (DOk q) /\ yields (rest_of t q n1) e2 (DOk rest'')).
    { destruct O as [-> | ->].
      - destruct (yields_same _ _ _ _ _ Y2 (yields_ok rest)) as [-> Q]. injection Q as ->.
        exists rest''. split; [exact Z2|apply yields_ok].
      - destruct (yields_same _ _ _ _ _ Z2 (yields_ok rest')) as [-> Q]. injection Q as ->.
        exists rest. split; [apply yields_ok|exact Y2]. }
    destruct R as (q & R1 & R2).
    exists (f1 ++ f2 ++ e1 ++ e2 ++ f3). split.
    + eapply loop_do; [exact W1|exact R1|]. eapply loop_do; [exact W2|exact R2|exact Z3].
    + rewrite !app_assoc. apply Permutation_app_tail. rewrite <- !app_assoc.
      rewrite (app_assoc e1 e2), (app_assoc f1 f2 (e1 ++ e2)). apply Permutation_app_comm.
  - destruct (IH1 slots rest es r G H) as (es1 & H1 & P1).
    destruct (IH2 slots rest es1 r G H1) as (es2 & H2 & P2). exists es2. split; [exact H2|].
    etransitivity; eauto.
Qed.

End Loop.

(** ** Derived structs *)

Section Struct.
Context {Sp L : Type} (kebab : text -> text).

Lemma swap_struct s names es ns ns' (e : list (derror Sp)) (zs : list (dval L)) :
  steady_struct s -> Forall (fun h => ch_mode h = CmFlatten -> commuting (ti_insert_child (f_impl (ch_field h))))
    (st_children s) ->
  Forall (fun name => Exists (fun h => claims h name) (st_children s)) names ->
  reordered names ns ns' ->
  yields (struct_children kebab s es ns) e (DOk zs) ->
  exists e', yields (struct_children kebab s es ns') e' (DOk zs) /\ Permutation e e'.
Proof.
  intros St Fl Hn Re H. pose proof (steady_parts s St) as (_ & _ & _ & _ & _ & K1 & K2).
  assert (Kn : forall d n, In d (st_children s) -> steady (child_fn kebab d n)).
  { intros d n I. apply st_node_fn. auto. }
  assert (Kv : forall f n, var_child_fn kebab s = Some f -> steady (f n)).
  { intros f n E. unfold var_child_fn in E. destruct (st_var_children s) as [[g u]|]; [|discriminate].
    injection E as <-. eapply st_node_fn, K2. reflexivity. }
  assert (G : good (st_children s) (map child_start (st_children s))).
  { unfold good. clear. induction (st_children s) as [|d l IH]; constructor; [|exact IH].
    unfold child_start, slot_fits. destruct (ch_mode d) eqn:M; congruence. }
  rewrite Forall_forall in Fl. unfold struct_children, decode_children in *.
  assert (Q : forall c, steady (d_collect (child_finish (L := L) es) (combine (st_children s) c))).
  { intros c. apply st_collect. intros [d sl] _. cbn [child_finish].
    repeat match goal with
    | |- steady (d_ok _) => apply st_ok
    | |- steady (d_err _) => apply st_err
    | |- context [match ?x with _ => _ end] => destruct x
    end. }
  apply yields_bind_inv in H.
  - destruct H as (e1 & e2 & [slots rest] & Y1 & Y2 & ->).
    destruct (swap_loop (child_fn kebab) (var_child_fn kebab s) (st_children s) K1 Kn Kv Fl names Hn ns ns'
      (keyed_swapped _ _ _ (reordered_keyed _ _ _ Re)) _ _ _ _ G Y1) as (e1' & Y1' & P).
    exists (e1' ++ e2). split; [|now apply Permutation_app_tail].
    eapply yields_bind; [exact Y1'|exact Y2].
  - now apply steady_loop.
  - intros [slots rest]. apply st_map, Q.
Qed.

Variables (named : bool) (ident : text) (cont : list (attr L)) (fs : list (src_field Sp L))
  (d : derived Sp L).
Hypothesis D : derives_struct kebab named ident cont fs d.
Hypothesis St : Forall (fun f => steady_type (sf_impl f)) fs.
Hypothesis Fl : flat_commute kebab fs.
Variable names : list text.
Hypothesis Hn : Forall (has_field kebab fs) names.

Lemma swap_document f ns ns' c c' v : dr_children d = Some f ->
  reordered names ns ns' -> f ns c = (c', DOk v) ->
  exists c'', f ns' c = (c'', DOk v) /\ Permutation (c_errors c') (c_errors c'') /\ c_ext c'' = c_ext c'.
Proof.
  destruct D as (Hd & Pr & Nn). intros E Re H.
  destruct (derived_struct kebab _ _ _ _ _ Hd Pr Nn) as (s & S & Em).
  pose proof (struct_new_steady kebab _ _ _ _ S St) as Ss.
  pose proof (proj1 (struct_new_filed kebab ident fs s S)) as F.
  pose proof (emit_struct_children _ _ _ _ _ Em E) as (-> & _).
  unfold flat_commute, has_field, the_children in Hn, Fl. rewrite <- (fi_children _ _ _ _ F) in Hn, Fl.
  assert (Sc := fun l => st_struct_children kebab s None l Ss).
  unfold struct_document in *.
  apply steady_yields in H; [|apply st_bind; [apply Sc|intros; apply st_ok]].
  destruct H as (es & Y & ->).
  apply yields_bind_inv in Y; [|apply Sc|intros; apply st_ok].
  destruct Y as (e1 & e2 & zs & Y1 & Y2 & ->).
  destruct (swap_struct _ _ _ _ _ _ _ Ss Fl Hn Re Y1) as (e1' & Y1' & P).
  exists (added (e1' ++ e2) c). split; [|split; [|reflexivity]].
  - apply (yields_bind _ (fun zs => d_ok (struct_val named s (zs ++ assign_extra s))) _ _ _ _ Y1' Y2).
  - cbn [added c_errors]. now apply Permutation_app_head, Permutation_app_tail.
Qed.

Lemma specials_with_children (s : struct Sp L) n ns :
  decode_specials s (with_children n ns) = decode_specials s n.
Proof. reflexivity. Qed.

Lemma args_with_children (s : struct Sp L) n ns c :
  decode_args s (with_children n ns) c = decode_args s n c.
Proof.
  assert (E : forall l it c, arg_fields (with_children n ns) l it c = arg_fields (L := L) n l it c).
  { induction l as [|a l IH]; intros it c0; cbn [arg_fields]; [reflexivity|].
    change (missing (with_children n ns)) with (missing n). unfold d_bind, d_map.
    match goal with |- context [match ?m c0 with _ => _ end] =>
      destruct (m c0) as [c1 [[x it']|e|]]; [|reflexivity|reflexivity] end.
    unfold d_bind. rewrite IH. reflexivity. }
  unfold decode_args, d_bind. rewrite E. reflexivity.
Qed.

Lemma props_with_children (s : struct Sp L) n ns : decode_props s (with_children n ns) = decode_props s n.
Proof. reflexivity. Qed.

Lemma swap_node n ns' c c' v :
  reordered names (node_children (s_value n)) ns' ->
  dr_node d n c = (c', DOk v) ->
  exists c'', dr_node d (with_children n ns') c = (c'', DOk v)
    /\ Permutation (c_errors c') (c_errors c'') /\ c_ext c'' = c_ext c'.
Proof.
  destruct D as (Hd & Pr & Nn). intros Re H.
  destruct (derived_struct kebab _ _ _ _ _ Hd Pr Nn) as (s & S & Em).
  pose proof (struct_new_steady kebab _ _ _ _ S St) as Ss.
  pose proof (proj1 (struct_new_filed kebab ident fs s S)) as F.
  rewrite (emit_struct_node _ _ _ _ Em) in *.
  unfold flat_commute, has_field, the_children in Hn, Fl. rewrite <- (fi_children _ _ _ _ F) in Hn, Fl.
  assert (Sc := fun l => st_struct_children kebab s (Some (s_span n)) l Ss).
  unfold struct_node in *.
  rewrite specials_with_children, props_with_children.
  change (s_span (with_children n ns')) with (s_span n).
  apply steady_yields in H;
    [|apply st_bind; [now apply st_specials|]; intros; apply st_bind; [now apply st_args|]; intros;
      apply st_bind; [now apply st_props|]; intros; apply st_bind; [apply Sc|]; intros; apply st_ok].
  destruct H as (es & Y & ->).
  apply yields_bind_inv in Y; [|now apply st_specials|
    intros; apply st_bind; [now apply st_args|]; intros;
      apply st_bind; [now apply st_props|]; intros; apply st_bind; [apply Sc|]; intros; apply st_ok].
  destruct Y as (e1 & e2' & ws & Y1 & Y & ->).
  apply yields_bind_inv in Y; [|now apply st_args|
    intros; apply st_bind; [now apply st_props|]; intros; apply st_bind; [apply Sc|]; intros; apply st_ok].
  destruct Y as (e2 & e3' & xs & Y2 & Y & ->).
  apply yields_bind_inv in Y; [|now apply st_props|
    intros; apply st_bind; [apply Sc|]; intros; apply st_ok].
  destruct Y as (e3 & e4' & ys & Y3 & Y & ->).
  apply yields_bind_inv in Y; [|apply Sc|intros; apply st_ok].
  destruct Y as (e4 & e5 & zs & Y4 & Y5 & ->).
  assert (K : exists e4', yields (struct_children kebab s (Some (s_span n))
             (node_children (s_value (with_children n ns')))) e4' (DOk zs) /\ Permutation e4 e4').
  { unfold node_children in *. cbn [with_children s_value n_children].
    destruct (n_children (s_value n)) as [ch|]; [|exists e4; split; [exact Y4|reflexivity]].
    exact (swap_struct _ _ _ _ _ _ _ Ss Fl Hn Re Y4). }
  destruct K as (f4 & Y4' & P).
  apply (yields_ext _ (decode_args s (with_children n ns'))) in Y2;
    [|intros; now rewrite args_with_children].
  exists (added (e1 ++ e2 ++ e3 ++ f4 ++ e5) c). split; [|split; [|reflexivity]].
  - exact (yields_bind _ (fun ws => d_bind (decode_args s (with_children n ns')) (fun xs => d_bind (decode_props s n) (fun ys =>
        d_bind (struct_children kebab s (Some (s_span n)) (node_children (s_value (with_children n ns')))) (fun zs =>
        d_ok (struct_val named s (ws ++ xs ++ ys ++ zs ++ assign_extra s)))))) _ _ _ _ Y1
      (yields_bind _ (fun xs => d_bind (decode_props s n) (fun ys =>
        d_bind (struct_children kebab s (Some (s_span n)) (node_children (s_value (with_children n ns')))) (fun zs =>
        d_ok (struct_val named s (ws ++ xs ++ ys ++ zs ++ assign_extra s))))) _ _ _ _ Y2
      (yields_bind _ (fun ys =>
        d_bind (struct_children kebab s (Some (s_span n)) (node_children (s_value (with_children n ns')))) (fun zs =>
        d_ok (struct_val named s (ws ++ xs ++ ys ++ zs ++ assign_extra s)))) _ _ _ _ Y3
      (yields_bind _ (fun zs =>
        d_ok (struct_val named s (ws ++ xs ++ ys ++ zs ++ assign_extra s))) _ _ _ _ Y4' Y5))) c).
  - cbn [added c_errors].
    now apply Permutation_app_head, Permutation_app_head, Permutation_app_head, Permutation_app_head,
      Permutation_app_tail.
Qed.

Lemma reordered_sym (l : list text) (ns ns' : list (snode Sp)) : reordered l ns ns' -> reordered l ns' ns.
Proof.
  intros [H1 H2]. split; [intros; symmetry; auto|]. cbv zeta in *. symmetry. exact H2.
Qed.

Lemma swap_parse f ns ns' v : dr_children d = Some f ->
  reordered names ns ns' ->
  parse (Parsed ns) f = Value_of v <-> parse (Parsed ns') f = Value_of v.
Proof.
  intros E. assert (G : forall ns ns', reordered names ns ns' ->
    parse (Parsed ns) f = Value_of v -> parse (Parsed ns') f = Value_of v).
  { clear ns ns'. intros ns ns' Re H. unfold parse, parse_with_context in *.
    destruct (f ns context_new) as [c' [x|e|]] eqn:H1; [|discriminate|discriminate].
    destruct (swap_document f ns ns' _ _ _ E Re H1) as (c2 & -> & P & _).
    unfold has_errors in *. destruct (c_errors c') as [|e l]; [|discriminate].
    apply Permutation_nil in P. rewrite P. exact H. }
  intros Re. split; apply G; [exact Re|now apply reordered_sym].
Qed.

End Struct.
