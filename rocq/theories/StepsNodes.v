(** Nodes are read once: the steps of [nodes] are bounded by those of its parts
    at each place, times the length. *)

From Coq Require Import NArith PeanoNat List Bool String Lia.
From Verif Require Import Chars Ast Errors Chumsky Spans Grammar Safe GrammarSafe Near GrammarNear
  Kdl Good LexSpace Steps StepsProps StepsBound.
Import ListNotations.
Local Open Scope nat_scope.
Local Open Scope list_scope.

Section Nodes.
Context {Sp : Type} {E : env Sp}.

Notation parser := (parser Sp).
Notation timed := (timed Sp).
Notation toks := (toks Sp).
Notation len := (@List.length (tok Sp)).

(** A closing brace or the end. *)
Definition stop (ts : toks) : Prop :=
  match ts with [] => True | (c, _) :: _ => c = 0x7D%N end.

Definition brace (ts : toks) : Prop :=
  match ts with [] => False | (c, _) :: _ => c = 0x7B%N end.

Lemma stop_dec ts : stop ts \/ ~ stop ts.
Proof.
  destruct ts as [|[c s] ts]; [left; exact I|]. simpl. destruct (N.eq_dec c 0x7D); auto.
Qed.

(** The steps of nodes from [ts] when [rest] is left: proportional to what was
    read, unless an item was given up; then nothing that may end the nodes
    follows. *)
Definition paid (Q : nat) (ts rest : toks) (k : nat) : Prop :=
  k <= Q * (len ts - len rest + 1) \/ (~ stop rest /\ k <= Q * (len ts + 1)).

Definition errs {A} (r : presult Sp A) : Prop := exists e, r_out r = Err e.

(** ** The parts *)

Variables W : toks.
Variables P Q : nat.
Hypothesis Qbig : 20 * P <= Q.
Hypothesis Ppos : 1 <= P.

Context {A1 A2 A3 A4 A5 A6 A7 : Type}.
Variables (lines : timed A1) (skip : timed (option unit)) (ty : timed A3) (name : timed A4)
  (items : timed A5) (spaces : timed A6) (term : timed A7).
Variable make : (A3 * A4 * A5) * option (option unit * spanned (list (snode Sp)) Sp) -> node Sp.
Variable keep : list (option unit * spanned (node Sp) Sp) -> list (snode Sp).

Hypothesis bounds : at_most lines W P /\ at_most skip W P /\ at_most ty W P /\ at_most name W P
  /\ at_most items W P /\ at_most spaces W P /\ at_most term W P.
Hypothesis shrink : shrinks (t_parser lines) /\ shrinks (t_parser skip) /\ shrinks (t_parser ty)
  /\ shrinks (t_parser name) /\ shrinks (t_parser items) /\ shrinks (t_parser spaces)
  /\ shrinks (t_parser term).
Hypothesis name_eats : eats 1 (t_parser name).
Hypothesis skip_stop : forall ts, stop ts -> exists a alt, r_out (t_parser skip ts) = Ok a ts alt.
Hypothesis ty_stop : forall ts, stop ts -> exists a alt, r_out (t_parser ty ts) = Ok a ts alt.
Hypothesis name_stop : forall ts, stop ts -> errs (t_parser name ts).
Hypothesis term_brace : forall ts a mid alt,
  r_out (t_parser skip ts) = Ok a mid alt -> brace mid -> errs (t_parser term ts).

(** A parser of nodes that is paid for on shorter inputs. *)
Variable f : nat.
Variable inner : timed (list (snode Sp)).
Hypothesis inner_shrinks : shrinks (t_parser inner).
Hypothesis inner_paid : forall ts, suffix ts W -> len ts < f ->
  match r_out (t_parser inner ts) with
  | Ok _ rest _ => paid Q ts rest (t_steps inner ts)
  | Err _ => t_steps inner ts <= Q * (len ts + 1)
  end.

Lemma then_ok {A B} (p : parser A) (q : parser B) ts x rest alt :
  r_out (p_then p q ts) = Ok x rest alt ->
  exists a b mid al al', r_out (p ts) = Ok a mid al /\ r_out (q mid) = Ok b rest al'.
Proof.
  unfold p_then, p_bind. destruct (r_out (p ts)) as [a mid al|e]; [|discriminate].
  destruct (r_out (q mid)) as [b r al'|e] eqn:R.
  - destruct (merge_alts al al'). cbn [r_out]. intros X; inversion X; subst.
    exists a, b, mid, al, al'. auto.
  - destruct (lmax_opt e al). discriminate.
Qed.

Lemma map_ok {A B} (g : A -> B) (p : parser A) ts x rest alt :
  r_out (p_map g p ts) = Ok x rest alt -> exists a, r_out (p ts) = Ok a rest alt.
Proof.
  unfold p_map. cbn [r_out]. destruct (r_out (p ts)); [|discriminate].
  intros X; inversion X; subst. eauto.
Qed.

Lemma span_ok {A} (p : parser A) ts x rest alt :
  r_out (p_spanned p ts) = Ok x rest alt -> exists a, r_out (p ts) = Ok a rest alt.
Proof.
  unfold p_spanned, p_map_with_span. cbn [r_out]. destruct (r_out (p ts)); [|discriminate].
  intros X; inversion X; subst. eauto.
Qed.

Lemma err_ok {A} g (p : parser A) ts x rest alt :
  r_out (p_map_err_with_span g p ts) = Ok x rest alt -> r_out (p ts) = Ok x rest alt.
Proof.
  unfold p_map_err_with_span. destruct (r_out (p ts)) eqn:R; [rewrite R; auto|].
  destruct (g _ _); discriminate.
Qed.

Lemma just_ok x ts a rest alt : r_out (@p_just Sp E x ts) = Ok a rest alt ->
  exists s, ts = (x, s) :: rest.
Proof.
  destruct ts as [|[c s] ts]; unfold p_just; [discriminate|].
  destruct (N.eqb c x) eqn:C; [|discriminate]. apply N.eqb_eq in C. subst c.
  cbn [r_out]. intros X; inversion X; subst. eauto.
Qed.

Lemma steps_then {A B} (p : timed A) (q : timed B) ts :
  t_steps (t_then p q) ts
  = t_steps p ts + match r_out (t_parser p ts) with Ok _ rest _ => t_steps q rest | Err _ => 0 end.
Proof. reflexivity. Qed.

Lemma then_parser {A B} (p : timed A) (q : timed B) :
  t_parser (t_then p q) = p_then (t_parser p) (t_parser q).
Proof. reflexivity. Qed.

Lemma then_ignore_parser {A B} (p : timed A) (q : timed B) :
  t_parser (t_then_ignore p q) = p_then_ignore (t_parser p) (t_parser q).
Proof. reflexivity. Qed.

Lemma map_parser {A B} (g : A -> B) (p : timed A) :
  t_parser (t_map g p) = p_map g (t_parser p).
Proof. reflexivity. Qed.

Lemma steps_ignore {A B} (p : timed A) (q : timed B) ts :
  t_steps (t_ignore_then p q) ts = t_steps (t_then p q) ts.
Proof. reflexivity. Qed.

Lemma steps_then_ignore {A B} (p : timed A) (q : timed B) ts :
  t_steps (t_then_ignore p q) ts = t_steps (t_then p q) ts.
Proof. reflexivity. Qed.

Lemma braced_parser :
  t_parser (t_braced_nodes inner)
  = p_ignore_then (p_just 0x7B%N)
      (p_map_err_with_span braces_err (p_then_ignore (t_parser inner) (p_just 0x7D%N))).
Proof. reflexivity. Qed.

Lemma braced_steps ts :
  t_steps (t_braced_nodes inner) ts
  = 1 + match r_out (@p_just Sp E 0x7B%N ts) with
        | Ok _ r _ =>
            t_steps inner r
            + match r_out (t_parser inner r) with Ok _ _ _ => 1 | Err _ => 0 end
        | Err _ => 0
        end.
Proof. reflexivity. Qed.

(** Braces. *)
Lemma braced_paid ts : suffix ts W -> len ts <= f ->
  match r_out (t_parser (t_braced_nodes inner) ts) with
  | Ok _ rest _ =>
      len rest < len ts /\ t_steps (t_braced_nodes inner) ts <= Q * (len ts - len rest)
  | Err _ =>
      t_steps (t_braced_nodes inner) ts <= 1
      \/ brace ts /\ t_steps (t_braced_nodes inner) ts <= Q * (len ts + 1)
  end.
Proof.
  intros Sf L. rewrite braced_steps.
  destruct (r_out (t_parser (t_braced_nodes inner) ts)) as [x rest alt|e] eqn:R.
  - rewrite braced_parser in R. apply map_ok in R. destruct R as [a R].
    apply then_ok in R. destruct R as [c [l [r1 [al1 [al2 [R1 R2]]]]]].
    rewrite R1. apply just_ok in R1. destruct R1 as [s ->].
    apply err_ok, map_ok in R2. destruct R2 as [b R2].
    apply then_ok in R2. destruct R2 as [l' [c' [r2 [al3 [al4 [R2 R3]]]]]].
    assert (len r1 < f) as L1 by (cbn [List.length] in L; lia).
    specialize (inner_paid r1 (suffix_tail _ _ _ Sf) L1). rewrite R2 in *.
    apply inner_shrinks, suffix_len in R2.
    apply just_ok in R3. destruct R3 as [s' ->].
    cbn [List.length] in *.
    destruct inner_paid as [H|[H _]]; [|exfalso; apply H; reflexivity].
    cbn [List.length] in H. split; [lia|].
    replace (S (len r1) - len rest) with (S (len r1 - S (len rest) + 1)) by lia.
    rewrite Nat.mul_succ_r. lia.
  - clear R. destruct (r_out (p_just 0x7B%N ts)) as [c r al|e'] eqn:R; [|left; lia].
    right. apply just_ok in R. destruct R as [s ->]. split; [reflexivity|].
    assert (len r < f) as L1 by (cbn [List.length] in L; lia).
    specialize (inner_paid r (suffix_tail _ _ _ Sf) L1). cbn [List.length].
    destruct (r_out (t_parser inner r)) as [l rest alt|e''].
    + assert (t_steps inner r <= Q * (len r + 1)) by (destruct inner_paid as [H|[_ H]]; nia).
      replace (S (len r) + 1) with (S (len r + 1)) by lia. rewrite Nat.mul_succ_r. lia.
    + replace (S (len r) + 1) with (S (len r + 1)) by lia. rewrite Nat.mul_succ_r. lia.
Qed.

(** The optional children. *)
Definition kids := t_or_not (t_then (t_ignore_then spaces skip) (t_spanned (t_braced_nodes inner))).

Lemma kids_steps ts :
  t_steps kids ts
  = t_steps spaces ts
    + match r_out (t_parser spaces ts) with Ok _ r _ => t_steps skip r | Err _ => 0 end
    + match r_out (t_parser (t_ignore_then spaces skip) ts) with
      | Ok _ r _ => t_steps (t_braced_nodes inner) r
      | Err _ => 0
      end.
Proof. reflexivity. Qed.

Lemma kids_parser :
  t_parser kids
  = p_or_not (p_then (p_ignore_then (t_parser spaces) (t_parser skip))
                (p_spanned (t_parser (t_braced_nodes inner)))).
Proof. reflexivity. Qed.

Lemma ignore_then_parser :
  t_parser (t_ignore_then spaces skip) = p_ignore_then (t_parser spaces) (t_parser skip).
Proof. reflexivity. Qed.

Lemma kids_paid ts : suffix ts W -> len ts <= f ->
  exists x rest alt, r_out (t_parser kids ts) = Ok x rest alt /\
  suffix rest ts /\
  (t_steps kids ts <= 3 * P + Q * (len ts - len rest)
   \/ (t_steps kids ts <= 2 * P + Q * (len ts + 1)
       /\ errs (p_then (t_parser spaces) (t_parser term) rest))).
Proof.
  intros Sf L.
  destruct shrink as [_ [Sk [_ [_ [_ [Ss _]]]]]].
  destruct bounds as [_ [Bk [_ [_ [_ [Bs _]]]]]].
  rewrite kids_parser, kids_steps. specialize (Bs ts Sf) as B1.
  assert (forall a r al, r_out (t_parser (t_ignore_then spaces skip) ts) = Ok a r al ->
    exists a1 r1 al1 a2 al2, r_out (t_parser spaces ts) = Ok a1 r1 al1
      /\ r_out (t_parser skip r1) = Ok a2 r al2 /\ suffix r1 ts /\ suffix r r1) as G.
  { intros a r al R. rewrite ignore_then_parser in R. apply map_ok in R. destruct R as [x R].
    apply then_ok in R. destruct R as [a1 [a2 [r1 [al1 [al2 [R1 R2]]]]]].
    exists a1, r1, al1, a2, al2. repeat split; auto; [eapply Ss, R1|eapply Sk, R2]. }
  assert (match r_out (t_parser spaces ts) with Ok _ r _ => t_steps skip r | Err _ => 0 end <= P)
    as B2.
  { destruct (r_out (t_parser spaces ts)) as [a r al|e] eqn:R; [|lia].
    apply Bk. eapply suffix_trans; [eapply Ss, R|exact Sf]. }
  unfold p_or_not.
  destruct (r_out (p_then _ _ ts)) as [x rest alt|e] eqn:R.
  - apply then_ok in R. destruct R as [a [b [r [al [al' [R1 R2]]]]]].
    apply span_ok in R2. destruct R2 as [b' R2].
    rewrite ignore_then_parser, R1. rewrite <- ignore_then_parser in R1.
    destruct (G _ _ _ R1) as [a1 [r1 [al1 [a2 [al2 [_ [_ [X1 X2]]]]]]]].
    pose proof (suffix_trans _ _ _ X2 X1) as X.
    pose proof (suffix_len _ _ X) as XL.
    pose proof (braced_paid r (suffix_trans _ _ _ X Sf) ltac:(lia)) as H. rewrite R2 in H.
    destruct H as [HL H].
    exists (Some x), rest, alt. split; [reflexivity|]. split.
    + eapply suffix_trans; [|exact X]. rewrite braced_parser in R2.
      eapply (shrinks_ignore_then (p_just 0x7B%N)); [apply shrinks_just| |exact R2].
      apply shrinks_map_err_with_span, shrinks_then_ignore; [exact inner_shrinks|apply shrinks_just].
    + left. assert (Q * (len r - len rest) <= Q * (len ts - len rest)) by (apply Nat.mul_le_mono_l; lia).
      lia.
  - exists None, ts, (Some e). split; [reflexivity|]. split; [apply suffix_refl|].
    destruct (r_out (t_parser (t_ignore_then spaces skip) ts)) as [a r al|e'] eqn:R1; [|left; lia].
    destruct (G _ _ _ eq_refl) as [a1 [r1 [al1 [a2 [al2 [R2 [R3 [X1 X2]]]]]]]].
    pose proof (suffix_trans _ _ _ X2 X1) as X. pose proof (suffix_len _ _ X) as XL.
    pose proof (braced_paid r (suffix_trans _ _ _ X Sf) ltac:(lia)) as H.
    destruct (r_out (t_parser (t_braced_nodes inner) r)) as [y rest alt|e''] eqn:R4.
    + exfalso. rewrite ignore_then_parser in R1.
      unfold p_then, p_bind in R. rewrite R1 in R.
      unfold p_spanned, p_map_with_span in R. cbn [r_out] in R. rewrite R4 in R.
      destruct (merge_alts al alt). discriminate.
    + destruct H as [H|[Hb H]]; [left; lia|]. right. split.
      * assert (Q * (len r + 1) <= Q * (len ts + 1)) by (apply Nat.mul_le_mono_l; lia). lia.
      * destruct (term_brace _ _ _ _ R3 Hb) as [e3 He3].
        unfold errs, p_then, p_bind. rewrite R2, He3. destruct (lmax_opt e3 al1). eexists. reflexivity.
Qed.

(** One node. *)
Definition one_node :=
  t_map make
    (t_then_ignore (t_then (t_then (t_then ty name) items) kids) (t_then spaces term)).

Lemma one_node_parser :
  t_parser one_node
  = p_map make
      (p_then_ignore
         (p_then (p_then (p_then (t_parser ty) (t_parser name)) (t_parser items)) (t_parser kids))
         (p_then (t_parser spaces) (t_parser term))).
Proof. reflexivity. Qed.

Lemma then_err {A B} (p : parser A) (q : parser B) ts a mid al :
  r_out (p ts) = Ok a mid al -> errs (q mid) -> errs (p_then p q ts).
Proof.
  intros R [e H]. unfold errs, p_then, p_bind. rewrite R, H. destruct (lmax_opt e al). eexists. reflexivity.
Qed.

Lemma then_err1 {A B} (p : parser A) (q : parser B) ts : errs (p ts) -> errs (p_then p q ts).
Proof. intros [e H]. unfold errs, p_then, p_bind. rewrite H. eexists. reflexivity. Qed.

(** What comes before the children. *)
Definition front := t_then (t_then ty name) items.

Lemma front_paid ts : suffix ts W ->
  t_steps front ts <= 3 * P
  /\ (stop ts -> t_steps front ts <= 2 * P /\ errs (t_parser front ts))
  /\ forall a r al, r_out (t_parser front ts) = Ok a r al -> suffix r ts /\ len r < len ts.
Proof.
  intros Sf.
  destruct shrink as [_ [_ [Sty [Sname [Sitems _]]]]].
  destruct bounds as [_ [_ [Bty [Bname [Bitems _]]]]].
  assert (forall a r al, r_out (p_then (t_parser ty) (t_parser name) ts) = Ok a r al ->
    suffix r ts /\ len r < len ts) as G.
  { intros a r al R. apply then_ok in R. destruct R as [a1 [a2 [r1 [al1 [al2 [R1 R2]]]]]].
    pose proof (Sty _ _ _ _ R1) as X1. pose proof (Sname _ _ _ _ R2) as X2.
    pose proof (name_eats _ _ _ _ R2) as X3. apply suffix_len in X1 as X4.
    split; [eapply suffix_trans; eauto|lia]. }
  assert (t_steps (t_then ty name) ts <= 2 * P) as B1.
  { rewrite steps_then. specialize (Bty ts Sf).
    destruct (r_out (t_parser ty ts)) as [a r al|e] eqn:R; [|lia].
    specialize (Bname r (suffix_trans _ _ _ (Sty _ _ _ _ R) Sf)). lia. }
  unfold front. rewrite steps_then.
  split; [|split].
  - destruct (r_out (t_parser (t_then ty name) ts)) as [a r al|e] eqn:R; [|lia].
    destruct (G _ _ _ R) as [X _]. specialize (Bitems r (suffix_trans _ _ _ X Sf)). lia.
  - intros St. destruct (ty_stop ts St) as [a [al R]].
    assert (errs (t_parser (t_then ty name) ts)) as [e R1].
    { apply (then_err (t_parser ty) (t_parser name) ts a ts al R), name_stop, St. }
    rewrite R1. split; [lia|].
    apply (then_err1 (t_parser (t_then ty name)) (t_parser items)). exists e. exact R1.
  - intros a r al R. rewrite then_parser in R.
    apply then_ok in R. destruct R as [a1 [a2 [r1 [al1 [al2 [R1 R2]]]]]].
    destruct (G _ _ _ R1) as [X1 X2]. apply Sitems in R2. apply suffix_len in R2 as R3.
    split; [eapply suffix_trans; eauto|lia].
Qed.

Definition before_term := t_then front kids.
Definition last_part := t_then spaces term.

Lemma last_paid ts : suffix ts W -> t_steps last_part ts <= 2 * P.
Proof.
  intros Sf. destruct shrink as [_ [_ [_ [_ [_ [Ssp _]]]]]].
  destruct bounds as [_ [_ [_ [_ [_ [Bsp Bterm]]]]]].
  unfold last_part. rewrite steps_then. specialize (Bsp ts Sf).
  destruct (r_out (t_parser spaces ts)) as [a r al|e] eqn:R; [|lia].
  specialize (Bterm r (suffix_trans _ _ _ (Ssp _ _ _ _ R) Sf)). lia.
Qed.

Lemma last_shrinks : shrinks (t_parser last_part).
Proof.
  destruct shrink as [_ [_ [_ [_ [_ [Ssp Sterm]]]]]]. 
  unfold last_part. rewrite then_parser. apply shrinks_then; assumption.
Qed.

Lemma before_paid ts : suffix ts W -> len ts <= f + 1 ->
  match r_out (t_parser before_term ts) with
  | Ok _ rest _ =>
      suffix rest ts /\ len rest < len ts
      /\ (t_steps before_term ts + 14 * P + Q * len rest <= Q * len ts
          \/ t_steps before_term ts <= 5 * P + Q * len ts /\ errs (t_parser last_part rest))
  | Err _ => t_steps before_term ts <= 3 * P /\ (stop ts -> t_steps before_term ts <= 2 * P)
  end
  /\ (stop ts -> errs (t_parser before_term ts)).
Proof.
  intros Sf L. destruct (front_paid ts Sf) as [B1 [B2 B3]].
  unfold before_term at 2 3 4 5. rewrite steps_then.
  unfold before_term. rewrite then_parser.
  unfold p_then at 1 2. unfold p_bind.
  destruct (r_out (t_parser front ts)) as [a r al|e] eqn:R.
  - destruct (B3 _ _ _ eq_refl) as [X1 X2].
    destruct (kids_paid r (suffix_trans _ _ _ X1 Sf) ltac:(lia)) as [x [rest [alt [R2 [X3 K]]]]].
    rewrite R2. destruct (merge_alts al alt). cbn [r_out]. split.
    + apply suffix_len in X3 as X4. split; [eapply suffix_trans; eauto|]. split; [lia|].
      assert (Q * len r + Q <= Q * len ts) by nia.
      destruct K as [K|[K F]].
      * left. assert (Q * len rest <= Q * len r) by (apply Nat.mul_le_mono_l; exact X4).
        rewrite Nat.mul_sub_distr_l in K. lia.
      * right. split; [lia|exact F].
    + intros St. destruct (B2 St) as [_ [e H]]. congruence.
  - split; [split; [lia|]|].
    + intros St. apply B2 in St. lia.
    + intros St. eexists. reflexivity.
Qed.

Lemma one_node_eq : one_node = t_map make (t_then_ignore before_term last_part).
Proof. reflexivity. Qed.

Lemma one_node_paid ts : suffix ts W -> len ts <= f + 1 ->
  match r_out (t_parser one_node ts) with
  | Ok _ rest _ =>
      suffix rest ts /\ len rest < len ts
      /\ t_steps one_node ts + 12 * P + Q * len rest <= Q * len ts
  | Err _ =>
      t_steps one_node ts + 13 * P <= Q * (len ts + 1) /\ (stop ts -> t_steps one_node ts <= 2 * P)
  end.
Proof.
  intros Sf L. destruct (before_paid ts Sf L) as [B Bs].
  rewrite one_node_eq, steps_map, steps_then_ignore, steps_then.
  rewrite map_parser, then_ignore_parser.
  destruct (r_out (p_map _ _ ts)) as [x rest alt|e] eqn:R.
  - apply map_ok in R. destruct R as [x1 R]. apply map_ok in R. destruct R as [x2 R].
    apply then_ok in R. destruct R as [a1 [a2 [r1 [al1 [al2 [R1 R2]]]]]].
    rewrite R1 in *. destruct B as [X1 [X2 B]].
    pose proof (last_paid r1 (suffix_trans _ _ _ X1 Sf)) as BL.
    apply last_shrinks in R2 as X3. apply suffix_len in X3 as X4.
    split; [eapply suffix_trans; eauto|]. split; [lia|].
    destruct B as [B|[_ [e F]]]; [|congruence].
    assert (Q * len rest <= Q * len r1) by (apply Nat.mul_le_mono_l; exact X4). lia.
  - clear R. destruct (r_out (t_parser before_term ts)) as [a r al|e'] eqn:R.
    + destruct B as [X1 [X2 B]].
      pose proof (last_paid r (suffix_trans _ _ _ X1 Sf)) as BL. split.
      * destruct B as [B|[B _]]; lia.
      * intros St. destruct (Bs St) as [e' H]. congruence.
    + split; [lia|]. intros St. apply B in St. lia.
Qed.

Definition item := t_then skip (t_spanned one_node).

Lemma item_parser : t_parser item = p_then (t_parser skip) (p_spanned (t_parser one_node)).
Proof. reflexivity. Qed.

Lemma item_steps ts :
  t_steps item ts
  = t_steps skip ts
    + match r_out (t_parser skip ts) with Ok _ r _ => t_steps one_node r | Err _ => 0 end.
Proof. reflexivity. Qed.

Lemma item_paid ts : suffix ts W -> len ts <= f + 1 ->
  match r_out (t_parser item ts) with
  | Ok _ rest _ =>
      suffix rest ts /\ len rest < len ts
      /\ t_steps item ts + 11 * P + Q * len rest <= Q * len ts
  | Err _ => t_steps item ts + 12 * P <= Q * (len ts + 1) /\ (stop ts -> t_steps item ts <= 3 * P)
  end.
Proof.
  intros Sf L. destruct shrink as [_ [Sk _]]. destruct bounds as [_ [Bk _]].
  specialize (Bk ts Sf). rewrite item_parser, item_steps.
  destruct (r_out (p_then _ _ ts)) as [x rest alt|e] eqn:R.
  - apply then_ok in R. destruct R as [a1 [a2 [r1 [al1 [al2 [R1 R2]]]]]].
    apply span_ok in R2. destruct R2 as [a3 R2]. rewrite R1. apply Sk in R1.
    apply suffix_len in R1 as L1.
    pose proof (one_node_paid r1 (suffix_trans _ _ _ R1 Sf) ltac:(lia)) as H. rewrite R2 in H.
    destruct H as [X1 [X2 H]]. split; [eapply suffix_trans; eauto|]. split; [lia|].
    assert (Q * len r1 <= Q * len ts) by (apply Nat.mul_le_mono_l; exact L1). lia.
  - destruct (r_out (t_parser skip ts)) as [a r al|e'] eqn:R1.
    + apply Sk in R1 as X1. apply suffix_len in X1 as L1.
      pose proof (one_node_paid r (suffix_trans _ _ _ X1 Sf) ltac:(lia)) as H.
      destruct (r_out (t_parser one_node r)) as [y rest alt|e'] eqn:R2.
      * exfalso. unfold p_then, p_bind in R. rewrite R1 in R.
        unfold p_spanned, p_map_with_span in R. cbn [r_out] in R. rewrite R2 in R.
        destruct (merge_alts al alt). discriminate.
      * split.
        -- assert (Q * (len r + 1) <= Q * (len ts + 1)) by (apply Nat.mul_le_mono_l; lia). lia.
        -- intros St. destruct (skip_stop ts St) as [a' [al' R3]].
           assert (r = ts) as -> by congruence. destruct H as [_ H]. specialize (H St). lia.
    + split; [nia|lia].
Qed.

(** Many nodes. *)
Lemma sep_paid fuel : forall ts, suffix ts W -> len ts <= f ->
  suffix (snd (sep_steps fuel item lines ts)) ts
  /\ (fst (sep_steps fuel item lines ts) + Q * len (snd (sep_steps fuel item lines ts))
      <= Q * len ts + 4 * P
      \/ (~ stop (after lines (snd (sep_steps fuel item lines ts)))
          /\ fst (sep_steps fuel item lines ts) <= Q * (len ts + 1))).
Proof.
  destruct shrink as [Sl _]. destruct bounds as [Bl _].
  induction fuel as [|fuel IH]; intros ts Sf L; cbn [sep_steps].
  - cbn [fst snd]. split; [apply suffix_refl|]. left. lia.
  - specialize (Bl ts Sf) as Bd.
    destruct (r_out (t_parser lines ts)) as [a r al|e] eqn:R.
    + apply Sl in R as X1. apply suffix_len in X1 as L1.
      pose proof (item_paid r (suffix_trans _ _ _ X1 Sf) ltac:(lia)) as H.
      destruct (r_out (t_parser item r)) as [x r2 al2|e] eqn:R2.
      * destruct H as [X2 [L2 H]].
        specialize (IH r2 (suffix_trans _ _ _ X2 (suffix_trans _ _ _ X1 Sf)) ltac:(lia)).
        destruct (sep_steps fuel item lines r2) as [k last] eqn:G. cbn [fst snd] in *.
        destruct IH as [X3 IH].
        split; [exact (suffix_trans _ _ _ X3 (suffix_trans _ _ _ X2 X1))|].
        assert (Q * len r <= Q * len ts) by (apply Nat.mul_le_mono_l; exact L1).
        destruct IH as [IH|[N IH]]; [left|right; split; [exact N|]]; lia.
      * cbn [fst snd]. split; [apply suffix_refl|].
        assert (Q * (len r + 1) <= Q * (len ts + 1)) by (apply Nat.mul_le_mono_l; lia).
        destruct (stop_dec r) as [St|St].
        -- left. apply H in St. lia.
        -- right. split; [|lia]. unfold after. rewrite R. exact St.
    + cbn [fst snd]. split; [apply suffix_refl|]. left. lia.
Qed.

Definition many := t_map keep (t_separated item lines).

Lemma many_steps ts :
  t_steps many ts
  = t_steps lines ts + t_steps item (after lines ts)
    + match r_out (t_parser item (after lines ts)) with
      | Err _ => 0
      | Ok _ rest _ =>
          fst (sep_steps (S (len ts)) item lines rest)
          + t_steps lines (snd (sep_steps (S (len ts)) item lines rest))
      end.
Proof.
  unfold many. rewrite steps_map. unfold t_separated. cbn [t_steps].
  destruct (r_out (t_parser item (after lines ts))); [|reflexivity].
  destruct (sep_steps _ _ _ _). reflexivity.
Qed.

Lemma after_p_after {A} (d : timed A) ts : after d ts = after_p (t_parser d) ts.
Proof. reflexivity. Qed.

Lemma many_paid ts : suffix ts W -> len ts <= f ->
  exists x rest alt, r_out (t_parser many ts) = Ok x rest alt /\ paid Q ts rest (t_steps many ts).
Proof.
  intros Sf L. destruct shrink as [Sl _]. destruct bounds as [Bl _].
  specialize (Bl ts Sf) as Bd. rewrite many_steps.
  destruct (separated_out item lines ts) as [l [alt R]]. rewrite <- !after_p_after in R.
  pose proof (after_suffix _ ts Sl) as X1. rewrite <- after_p_after in X1.
  apply suffix_len in X1 as L1.
  assert (Q * (len (after lines ts) + 1) <= Q * (len ts + 1)) by (apply Nat.mul_le_mono_l; lia).
  exists (keep l). unfold many, t_map, t_separated. cbn [t_parser]. unfold p_map at 1.
  rewrite R. cbn [r_out]. eexists _, _. split; [reflexivity|].
  pose proof (item_paid _ (suffix_trans _ _ _ X1 Sf) ltac:(lia)) as H1. clear R. unfold paid.
  destruct (r_out (t_parser item (after lines ts))) as [x r al|e] eqn:R.
  - destruct H1 as [X2 [L2 H1]].
    destruct (sep_paid (S (len ts)) r (suffix_trans _ _ _ X2 (suffix_trans _ _ _ X1 Sf)) ltac:(lia))
      as [X3 H2].
    destruct (sep_steps _ _ _ _) as [k last]. cbn [fst snd] in *.
    pose proof (after_suffix _ last Sl) as X4. rewrite <- after_p_after in X4.
    apply suffix_len in X4 as L4.
    pose proof (suffix_trans _ _ _ X3 (suffix_trans _ _ _ X2 X1)) as X5.
    specialize (Bl last (suffix_trans _ _ _ X5 Sf)).
    rewrite <- (after_p_after lines last).
    destruct H2 as [H2|[N H2]].
    + left. assert (Q * (len ts - len last + 1) <= Q * (len ts - len (after lines last) + 1)).
      { apply Nat.mul_le_mono_l; lia. }
      rewrite Nat.mul_add_distr_l, Nat.mul_sub_distr_l, Nat.mul_1_r in H0.
      apply suffix_len, (Nat.mul_le_mono_l _ _ Q) in X5. lia.
    + right. split; [exact N|]. lia.
  - destruct (stop_dec (after lines ts)) as [St|St].
    + left. apply H1 in St. 
      assert (Q * 1 <= Q * (len ts - len (after lines ts) + 1)) by (apply Nat.mul_le_mono_l; lia).
      lia.
    + right. split; [exact St|lia].
Qed.

End Nodes.
