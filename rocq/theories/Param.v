(** Two runs of the same parser with two kinds of spans.

    The parsers use spans only through the operations of [env].  So if a relation
    between two kinds of spans is respected by these operations, then related
    tokens give related results, errors and crashes included. *)

From Coq Require Import NArith PeanoNat List Bool String Lia.
From Verif Require Import Chars Ast Errors Chumsky Spans Grammar.
Import ListNotations.

Inductive ropt {A B} (R : A -> B -> Prop) : option A -> option B -> Prop :=
| Ropt_none : ropt R None None
| Ropt_some a b : R a b -> ropt R (Some a) (Some b).

Definition rprod {A B C D} (R : A -> B -> Prop) (Q : C -> D -> Prop) (p : A * C) (q : B * D) :=
  R (fst p) (fst q) /\ Q (snd p) (snd q).

Inductive rsum {A B C D} (R : A -> B -> Prop) (Q : C -> D -> Prop) : A + C -> B + D -> Prop :=
| Rsum_l a b : R a b -> rsum R Q (inl a) (inl b)
| Rsum_r c d : Q c d -> rsum R Q (inr c) (inr d).

Section Param.
Context {S1 S2 : Type} {E1 : env S1} {E2 : env S2}.
(** The relations between spans of tokens, of what was parsed, in errors, and of what was
    opened and not closed. *)
Variables RT R RE RO : S1 -> S2 -> Prop.

Record env_rel : Prop := EnvRel {
  rel_join : forall a b a' b', RT a a' -> RT b b' -> R (sp_join a b) (sp_join a' b');
  rel_join_eoi : R (sp_join sp_eoi sp_eoi) (sp_join sp_eoi sp_eoi);
  rel_tok_err : forall a a', RT a a' -> RE a a';
  rel_err : forall a a', R a a' -> RE a a';
  rel_at_start : forall n a a', R a a' -> RO (sp_at_start n a) (sp_at_start n a');
  rel_at_end : forall a a', R a a' -> RE (sp_at_end a) (sp_at_end a');
  rel_before : forall n a a', R a a' -> RO (sp_before_start n a) (sp_before_start n a');
  rel_length : forall a a', R a a' -> sp_length a = sp_length a';
  rel_eoi : RE sp_eoi sp_eoi;
}.
Hypothesis HR : env_rel.

Definition rel_tok (a : tok S1) (b : tok S2) : Prop := fst a = fst b /\ RT (snd a) (snd b).
Definition rel_toks : toks S1 -> toks S2 -> Prop := Forall2 rel_tok.

Inductive rel_perr : perror S1 -> perror S2 -> Prop :=
| RPe_unexpected l s s' f x : RE s s' -> rel_perr (EUnexpected l s f x) (EUnexpected l s' f x)
| RPe_unclosed l s s' o e e' x f : RO s s' -> RE e e' ->
    rel_perr (EUnclosed l s o e x f) (EUnclosed l s' o e' x f)
| RPe_message l s s' m : RE s s' -> rel_perr (EMessage l s m) (EMessage l s' m)
| RPe_help l s s' m h : RE s s' -> rel_perr (EMessageHelp l s m h) (EMessageHelp l s' m h).

Inductive rel_loc : located S1 -> located S2 -> Prop :=
| RLoc n e e' : rel_perr e e' -> rel_loc (Located n e) (Located n e').

Inductive rel_out {A B} (RA : A -> B -> Prop) : outcome S1 A -> outcome S2 B -> Prop :=
| RO_ok a b r r' alt alt' : RA a b -> rel_toks r r' -> ropt rel_loc alt alt' ->
    rel_out RA (Ok a r alt) (Ok b r' alt')
| RO_err e e' : rel_loc e e' -> rel_out RA (Err e) (Err e').

Inductive rel_res {A B} (RA : A -> B -> Prop) : presult S1 A -> presult S2 B -> Prop :=
| RR errs errs' o o' c : Forall2 rel_loc errs errs' -> rel_out RA o o' ->
    rel_res RA (Res errs o c) (Res errs' o' c).

Definition rel_p {A B} (RA : A -> B -> Prop) (p : parser S1 A) (q : parser S2 B) : Prop :=
  forall ts ts', rel_toks ts ts' -> rel_res RA (p ts) (q ts').

Definition rel_perr_opt := ropt rel_perr.

(** ** Errors *)

Lemma merge_rel a a' b b' : rel_perr a a' -> rel_perr b b' -> ropt rel_perr (merge a b) (merge a' b').
Proof.
  intros H K. inversion H; inversion K; subst; cbn; constructor; constructor; assumption.
Qed.

Definition rel_mloc (x : located S1 * list crash) (y : located S2 * list crash) : Prop :=
  rel_loc (fst x) (fst y) /\ snd x = snd y.

Definition rel_moloc (x : option (located S1) * list crash) (y : option (located S2) * list crash)
  : Prop := ropt rel_loc (fst x) (fst y) /\ snd x = snd y.

Lemma lmax_rel a a' b b' : rel_loc a a' -> rel_loc b b' -> rel_mloc (lmax a b) (lmax a' b').
Proof.
  intros H K. destruct H as [n e e' H], K as [m f f' K]. unfold lmax. cbn [l_rem l_err].
  destruct (Nat.compare n m).
  - destruct (merge_rel _ _ _ _ H K); split; cbn; try reflexivity; constructor; assumption.
  - split; cbn; [constructor; assumption|reflexivity].
  - split; cbn; [constructor; assumption|reflexivity].
Qed.

Lemma lmax_opt_rel a a' b b' : rel_loc a a' -> ropt rel_loc b b' ->
  rel_mloc (lmax_opt a b) (lmax_opt a' b').
Proof.
  intros H K. destruct K as [|b b' K]; cbn.
  - split; [exact H|reflexivity].
  - apply lmax_rel; assumption.
Qed.

Lemma merge_alts_rel a a' b b' : ropt rel_loc a a' -> ropt rel_loc b b' ->
  rel_moloc (merge_alts a b) (merge_alts a' b').
Proof.
  intros H K. destruct H as [|a a' H], K as [|b b' K]; cbn.
  - split; [constructor|reflexivity].
  - split; [constructor; assumption|reflexivity].
  - split; [constructor; assumption|reflexivity].
  - pose proof (lmax_rel _ _ _ _ K H) as L.
    destruct (lmax b a) as [m c], (lmax b' a') as [m' c']. destruct L as [L1 L2]. cbn in *.
    split; cbn; [constructor; assumption|assumption].
Qed.

Lemma merge_alts_list_rel l l' : Forall2 rel_loc l l' -> forall a a', ropt rel_loc a a' ->
  rel_moloc (merge_alts_list a l) (merge_alts_list a' l').
Proof.
  induction 1 as [|b b' l l' B _ IH]; intros a a' H; cbn [merge_alts_list].
  - split; [exact H|reflexivity].
  - pose proof (merge_alts_rel a a' (Some b) (Some b') H (Ropt_some _ _ _ B)) as M.
    destruct (merge_alts a (Some b)) as [m c], (merge_alts a' (Some b')) as [m' c'].
    destruct M as [M1 M2]. cbn in M1, M2. subst c'.
    specialize (IH m m' M1).
    destruct (merge_alts_list m l) as [n d], (merge_alts_list m' l') as [n' d'].
    destruct IH as [I1 I2]. cbn in I1, I2. subst d'. split; [exact I1|reflexivity].
Qed.

Lemma rel_toks_length ts ts' : rel_toks ts ts' -> List.length ts = List.length ts'.
Proof. induction 1; cbn; congruence. Qed.

Lemma rel_nth ts ts' n : rel_toks ts ts' -> ropt rel_tok (nth_error ts n) (nth_error ts' n).
Proof.
  intros H. revert n. induction H as [|a b ts ts' H _ IH]; intros [|n]; cbn; try constructor; auto.
Qed.

Lemma span_since_rel ts ts' n : rel_toks ts ts' -> R (span_since ts n) (span_since ts' n).
Proof.
  intros H. unfold span_since. rewrite (rel_toks_length _ _ H).
  assert (List.length ts' = 0 \/ List.length ts' - n - 1 < List.length ts') as I by lia.
  revert I. generalize (List.length ts' - n - 1). intros k I.
  pose proof (rel_nth _ _ k H) as N. revert I N.
  destruct H as [|[c s] [c' s'] ts ts' [_ H] K]; intros I N.
  - destruct k; apply (rel_join_eoi HR).
  - inversion N as [X Y|[d q] [d' q'] [_ N'] X Y].
    + exfalso. symmetry in Y. apply nth_error_None in Y. cbn [List.length] in *. lia.
    + apply (rel_join HR); [exact H|exact N'].
Qed.

Lemma unexpected_rel ts ts' x : rel_toks ts ts' -> rel_loc (unexpected ts x) (unexpected ts' x).
Proof.
  intros H. destruct H as [|[c s] [c' s'] ts ts' [H1 H2] H]; cbn.
  - constructor. constructor. apply (rel_eoi HR).
  - cbn in H1, H2. subst c'. rewrite (rel_toks_length _ _ H). constructor. constructor.
    apply (rel_tok_err HR). exact H2.
Qed.

Lemma fail_rel {A B} (RA : A -> B -> Prop) e e' : rel_loc e e' -> rel_res RA (fail e) (fail e').
Proof. intros H. constructor; constructor. exact H. Qed.

(** ** Combinators *)

Lemma rel_filter f : rel_p eq (p_filter f) (p_filter f).
Proof.
  intros ts ts' H. unfold p_filter. inversion H as [|[c s] [c' s'] us us' [H1 H2] K]; subst.
  - apply fail_rel, unexpected_rel, H.
  - cbn in H1. subst c'. destruct (f c).
    + constructor; constructor; auto. constructor.
    + apply fail_rel, unexpected_rel, H.
Qed.

Lemma rel_none_of x : rel_p eq (p_none_of x) (p_none_of x).
Proof. apply rel_filter. Qed.

Lemma rel_just x : rel_p eq (p_just x) (p_just x).
Proof.
  intros ts ts' H. unfold p_just. inversion H as [|[c s] [c' s'] us us' [H1 H2] K]; subst.
  - apply fail_rel, unexpected_rel, H.
  - cbn in H1. subst c'. destruct (N.eqb c x).
    + constructor; constructor; auto. constructor.
    + apply fail_rel, unexpected_rel, H.
Qed.

Lemma rel_just_str s : rel_p eq (p_just_str s) (p_just_str s).
Proof.
  induction s as [|x s IH]; intros ts ts' H; cbn [p_just_str].
  - constructor; constructor; auto. constructor.
  - inversion H as [|[c p] [c' p'] us us' [H1 H2] K]; subst.
    + apply fail_rel, unexpected_rel, H.
    + cbn in H1. subst c'. destruct (N.eqb c x).
      * apply IH. exact K.
      * apply fail_rel, unexpected_rel, H.
Qed.

Lemma rel_end : rel_p eq p_end p_end.
Proof.
  intros ts ts' H. inversion H; subst; cbn [p_end].
  - constructor; constructor; auto; constructor.
  - apply fail_rel, unexpected_rel. exact H.
Qed.

Lemma rel_filter_map {A B} (RA : A -> B -> Prop) f g :
  (forall s s' c, RT s s' -> rsum RA rel_perr (f s c) (g s' c)) ->
  rel_p RA (p_filter_map f) (p_filter_map g).
Proof.
  intros F ts ts' H. unfold p_filter_map. inversion H as [|[c s] [c' s'] us us' [H1 H2] K]; subst.
  - apply fail_rel, unexpected_rel, H.
  - cbn in H1. subst c'. destruct (F s s' c H2) as [a b X|e e' X].
    + constructor; constructor; auto. constructor.
    + cbn [List.length]. rewrite (rel_toks_length _ _ K). apply fail_rel. constructor. exact X.
Qed.

Lemma rel_map {A B C D} (RA : A -> B -> Prop) (RC : C -> D -> Prop) f g p q :
  (forall a b, RA a b -> RC (f a) (g b)) -> rel_p RA p q -> rel_p RC (p_map f p) (p_map g q).
Proof.
  intros F P ts ts' H. specialize (P ts ts' H). unfold p_map.
  destruct P as [errs errs' o o' c P1 P2]. cbn. constructor; [exact P1|].
  destruct P2; constructor; auto.
Qed.

Lemma rel_ignored {A B} (RA : A -> B -> Prop) p q : rel_p RA p q ->
  rel_p eq (p_ignored p) (p_ignored q).
Proof. apply rel_map. reflexivity. Qed.

Lemma rel_map_with_span {A B C D} (RA : A -> B -> Prop) (RC : C -> D -> Prop) f g p q :
  (forall a b s s', RA a b -> R s s' -> RC (f a s) (g b s')) -> rel_p RA p q ->
  rel_p RC (p_map_with_span f p) (p_map_with_span g q).
Proof.
  intros F P ts ts' H. specialize (P ts ts' H). unfold p_map_with_span.
  destruct P as [errs errs' o o' c P1 P2]. cbn. constructor; [exact P1|].
  destruct P2 as [a b r r' alt alt' HA Hr Ha|]; constructor; auto.
  apply F; [exact HA|]. rewrite (rel_toks_length _ _ Hr). apply span_since_rel. exact H.
Qed.

Lemma rel_map_err {A B} (RA : A -> B -> Prop) f g p q :
  (forall e e', rel_perr e e' -> rel_perr (f e) (g e')) -> rel_p RA p q ->
  rel_p RA (p_map_err f p) (p_map_err g q).
Proof.
  intros F P ts ts' H. specialize (P ts ts' H). unfold p_map_err.
  destruct P as [errs errs' o o' c P1 P2]. cbn. constructor; [exact P1|].
  destruct P2 as [a b r r' alt alt' HA Hr Ha|e e' [n x x' X]]; constructor; auto. cbn.
  constructor. auto.
Qed.

Lemma rel_map_err_with_span {A B} (RA : A -> B -> Prop) f g p q :
  (forall e e' s s', rel_perr e e' -> R s s' -> ropt rel_perr (f e s) (g e' s')) -> rel_p RA p q ->
  rel_p RA (p_map_err_with_span f p) (p_map_err_with_span g q).
Proof.
  intros F P ts ts' H. specialize (P ts ts' H). unfold p_map_err_with_span.
  destruct P as [errs errs' o o' c P1 P2]. cbn [r_out r_errs r_crash].
  destruct P2 as [a b r r' alt alt' HA Hr Ha|e e' [n x x' X]].
  - constructor; [exact P1|]. constructor; assumption.
  - cbn [l_rem l_err]. destruct (F x x' _ _ X (span_since_rel ts ts' n H)) as [|y y' Y].
    + constructor; [exact P1|]. constructor. constructor. exact X.
    + constructor; [exact P1|]. constructor. constructor. exact Y.
Qed.

Lemma rel_try_map {A B C D} (RA : A -> B -> Prop) (RC : C -> D -> Prop) f g p q :
  (forall a b s s', RA a b -> R s s' -> rsum RC rel_perr (f a s) (g b s')) -> rel_p RA p q ->
  rel_p RC (p_try_map f p) (p_try_map g q).
Proof.
  intros F P ts ts' H. specialize (P ts ts' H). unfold p_try_map.
  destruct P as [errs errs' o o' c P1 P2]. cbn [r_out r_errs r_crash]. constructor; [exact P1|].
  destruct P2 as [a b r r' alt alt' HA Hr Ha|e e' X].
  - rewrite (rel_toks_length _ _ Hr).
    destruct (F a b _ _ HA (span_since_rel ts ts' (List.length r') H)); constructor; auto.
    constructor. assumption.
  - constructor. exact X.
Qed.

Lemma rel_validate {A B C D} (RA : A -> B -> Prop) (RC : C -> D -> Prop) f g p q :
  (forall a b s s', RA a b -> R s s' -> rprod RC (ropt rel_perr) (f a s) (g b s')) -> rel_p RA p q ->
  rel_p RC (p_validate f p) (p_validate g q).
Proof.
  intros F P ts ts' H. specialize (P ts ts' H). unfold p_validate.
  destruct P as [errs errs' o o' c P1 P2]. cbn [r_out r_errs r_crash].
  destruct P2 as [a b r r' alt alt' HA Hr Ha|e e' X].
  - rewrite (rel_toks_length _ _ Hr).
    pose proof (F a b _ _ HA (span_since_rel ts ts' (List.length r') H)) as K.
    destruct (f a _) as [x e], (g b _) as [y e']. destruct K as [K1 K2]. cbn in K1, K2.
    constructor.
    + apply Forall2_app; [exact P1|]. destruct K2; repeat constructor. assumption.
    + constructor; assumption.
  - constructor; [exact P1|]. constructor. exact X.
Qed.

Lemma rel_bind {A B C D} (RA : A -> B -> Prop) (RC : C -> D -> Prop) p p' q q' :
  rel_p RA p p' -> (forall a b, RA a b -> rel_p RC (q a) (q' b)) ->
  rel_p (rprod RA RC) (p_bind p q) (p_bind p' q').
Proof.
  intros P Q ts ts' H. specialize (P ts ts' H). unfold p_bind.
  destruct P as [errs errs' o o' c P1 P2]. cbn [r_out r_errs r_crash].
  destruct P2 as [a b r r' alt alt' HA Hr Ha|e e' X].
  - specialize (Q a b HA r r' Hr). destruct Q as [errs2 errs2' o2 o2' c2 Q1 Q2].
    cbn [r_out r_errs r_crash].
    destruct Q2 as [x y u u' alt2 alt2' HX Hu Ha2|e e' X].
    + pose proof (merge_alts_rel _ _ _ _ Ha Ha2) as M.
      destruct (merge_alts alt alt2) as [m k], (merge_alts alt' alt2') as [m' k'].
      destruct M as [M1 M2]. cbn in M1, M2. subst k'. constructor; [apply Forall2_app; assumption|].
      constructor; [split; assumption|assumption|assumption].
    + pose proof (lmax_opt_rel _ _ _ _ X Ha) as M.
      destruct (lmax_opt e alt) as [m k], (lmax_opt e' alt') as [m' k'].
      destruct M as [M1 M2]. cbn in M1, M2. subst k'. constructor; [apply Forall2_app; assumption|].
      constructor. exact M1.
  - constructor; [exact P1|]. constructor. exact X.
Qed.

Lemma rel_then {A B C D} (RA : A -> B -> Prop) (RC : C -> D -> Prop) p p' q q' :
  rel_p RA p p' -> rel_p RC q q' -> rel_p (rprod RA RC) (p_then p q) (p_then p' q').
Proof. intros P Q. apply rel_bind; auto. Qed.

Lemma rel_ignore_then {A B C D} (RA : A -> B -> Prop) (RC : C -> D -> Prop) p p' q q' :
  rel_p RA p p' -> rel_p RC q q' -> rel_p RC (p_ignore_then p q) (p_ignore_then p' q').
Proof. intros P Q. eapply rel_map; [|apply rel_then; eassumption]. intros a b [_ H]. exact H. Qed.

Lemma rel_then_ignore {A B C D} (RA : A -> B -> Prop) (RC : C -> D -> Prop) p p' q q' :
  rel_p RA p p' -> rel_p RC q q' -> rel_p RA (p_then_ignore p q) (p_then_ignore p' q').
Proof. intros P Q. eapply rel_map; [|apply rel_then; eassumption]. intros a b [H _]. exact H. Qed.

Lemma rel_delimited {A B C D F G} (RA : A -> B -> Prop) (RC : C -> D -> Prop) (RF : F -> G -> Prop)
    p p' o o' c c' :
  rel_p RA p p' -> rel_p RC o o' -> rel_p RF c c' ->
  rel_p RA (p_delimited p o c) (p_delimited p' o' c').
Proof.
  intros P O C'. eapply rel_then_ignore; [|eassumption]. eapply rel_ignore_then; eassumption.
Qed.

Lemma add_crash_rel {A B} (RA : A -> B -> Prop) c r r' : rel_res RA r r' ->
  rel_res RA (add_crash c r) (add_crash c r').
Proof. intros H. destruct H. constructor; assumption. Qed.

Lemma branch_alt_rel {A B} (RA : A -> B -> Prop) o o' : rel_out RA o o' ->
  ropt rel_loc (branch_alt o) (branch_alt o').
Proof. intros H. destruct H; cbn; [assumption|constructor; assumption]. Qed.

Lemma with_alt_rel {A B} (RA : A -> B -> Prop) r r' x x' : rel_res RA r r' -> rel_res RA x x' ->
  rel_res RA (with_alt r x) (with_alt r' x').
Proof.
  intros H K. destruct H as [errs errs' o o' c H1 H2], K as [errs2 errs2' o2 o2' c2 K1 K2].
  unfold with_alt. cbn [r_out r_errs r_crash].
  destruct H2 as [a b r r' alt alt' HA Hr Ha|e e' X].
  - pose proof (merge_alts_rel _ _ _ _ Ha (branch_alt_rel _ _ _ K2)) as M.
    destruct (merge_alts alt _) as [m k], (merge_alts alt' _) as [m' k'].
    destruct M as [M1 M2]. cbn in M1, M2. subst k'. constructor; [assumption|]. constructor; assumption.
  - constructor; [assumption|]. constructor. exact X.
Qed.

Lemma cmp_at_rel a a' b b' : rel_loc a a' -> rel_loc b b' -> cmp_at a b = cmp_at a' b'.
Proof. intros H K. destruct H, K. reflexivity. Qed.

Lemma cmp_alt_rel a a' b b' : ropt rel_loc a a' -> ropt rel_loc b b' -> cmp_alt a b = cmp_alt a' b'.
Proof. intros H K. destruct H, K; cbn; try reflexivity. apply cmp_at_rel; assumption. Qed.

Lemma Forall2_rev {A B} (P : A -> B -> Prop) l l' : Forall2 P l l' -> Forall2 P (rev l) (rev l').
Proof.
  induction 1; cbn; [constructor|]. apply Forall2_app; [assumption|]. constructor; [assumption|constructor].
Qed.

Lemma cmp_last_rel a a' b b' : Forall2 rel_loc a a' -> Forall2 rel_loc b b' ->
  cmp_last a b = cmp_last a' b'.
Proof.
  intros H K. apply Forall2_rev in H. apply Forall2_rev in K. unfold cmp_last, last_err.
  destruct H, K; try reflexivity. apply cmp_at_rel; assumption.
Qed.

Lemma Forall2_length' {A B} (P : A -> B -> Prop) l l' : Forall2 P l l' -> List.length l = List.length l'.
Proof. induction 1; cbn; congruence. Qed.

Lemma rel_or {A B} (RA : A -> B -> Prop) p p' q q' : rel_p RA p p' -> rel_p RA q q' ->
  rel_p RA (p_or p q) (p_or p' q').
Proof.
  intros P Q ts ts' H. specialize (P ts ts' H). specialize (Q ts ts' H). unfold p_or.
  destruct (p ts) as [ea oa ca], (p' ts') as [ea' oa' ca'].
  destruct (q ts) as [eb ob cb], (q' ts') as [eb' ob' cb'].
  pose proof P as P0. pose proof Q as Q0.
  inversion P as [? ? ? ? ? P1 P2]; subst. inversion Q as [? ? ? ? ? Q1 Q2]; subst.
  cbn [r_out r_errs r_crash].
  pose proof (Forall2_length' _ _ _ P1) as LP. pose proof (Forall2_length' _ _ _ Q1) as LQ.
  pose proof (cmp_last_rel _ _ _ _ P1 Q1) as CL.
  assert (G : rel_res RA
    (match oa, ob with
      | Ok _ _ alta, Ok _ _ altb =>
          let a_wins := add_crash cb' (with_alt (Res ea oa ca') (Res eb ob cb')) in
          let b_wins := add_crash ca' (with_alt (Res eb ob cb') (Res ea oa ca')) in
          match Nat.compare (List.length ea) (List.length eb) with
          | Gt => b_wins
          | Lt => a_wins
          | Eq =>
              match cmp_last ea eb with
              | Gt => a_wins
              | Lt => b_wins
              | Eq =>
                  match cmp_alt alta altb with
                  | Lt => b_wins
                  | _ => a_wins
                  end
              end
          end
      | Ok _ _ _, Err _ => add_crash cb' (with_alt (Res ea oa ca') (Res eb ob cb'))
      | Err _, Ok _ _ _ => add_crash ca' (with_alt (Res eb ob cb') (Res ea oa ca'))
      | Err e1, Err e2 =>
          match cmp_at e1 e2 with
          | Gt => add_crash cb' (Res ea oa ca')
          | Lt => add_crash ca' (Res eb ob cb')
          | Eq =>
              match Nat.compare (List.length ea) (List.length eb) with
              | Gt => add_crash ca' (Res eb ob cb')
              | Lt => add_crash cb' (Res ea oa ca')
              | Eq =>
                  match cmp_last ea eb with
                  | Gt => add_crash cb' (Res ea oa ca')
                  | Lt => add_crash ca' (Res eb ob cb')
                  | Eq =>
                      let '(e, c) := lmax e1 e2 in
                      Res ea (Err e) (ca' ++ cb' ++ c)
                  end
              end
          end
      end)
    (match oa', ob' with
      | Ok _ _ alta, Ok _ _ altb =>
          let a_wins := add_crash cb' (with_alt (Res ea' oa' ca') (Res eb' ob' cb')) in
          let b_wins := add_crash ca' (with_alt (Res eb' ob' cb') (Res ea' oa' ca')) in
          match Nat.compare (List.length ea') (List.length eb') with
          | Gt => b_wins
          | Lt => a_wins
          | Eq =>
              match cmp_last ea' eb' with
              | Gt => a_wins
              | Lt => b_wins
              | Eq =>
                  match cmp_alt alta altb with
                  | Lt => b_wins
                  | _ => a_wins
                  end
              end
          end
      | Ok _ _ _, Err _ => add_crash cb' (with_alt (Res ea' oa' ca') (Res eb' ob' cb'))
      | Err _, Ok _ _ _ => add_crash ca' (with_alt (Res eb' ob' cb') (Res ea' oa' ca'))
      | Err e1, Err e2 =>
          match cmp_at e1 e2 with
          | Gt => add_crash cb' (Res ea' oa' ca')
          | Lt => add_crash ca' (Res eb' ob' cb')
          | Eq =>
              match Nat.compare (List.length ea') (List.length eb') with
              | Gt => add_crash ca' (Res eb' ob' cb')
              | Lt => add_crash cb' (Res ea' oa' ca')
              | Eq =>
                  match cmp_last ea' eb' with
                  | Gt => add_crash cb' (Res ea' oa' ca')
                  | Lt => add_crash ca' (Res eb' ob' cb')
                  | Eq =>
                      let '(e, c) := lmax e1 e2 in
                      Res ea' (Err e) (ca' ++ cb' ++ c)
                  end
              end
          end
      end)).
  { rewrite LP, LQ, CL.
    pose proof (add_crash_rel RA ca' _ _ Q0) as X1. pose proof (add_crash_rel RA cb' _ _ P0) as X2.
    pose proof (add_crash_rel RA cb' _ _ (with_alt_rel RA _ _ _ _ P0 Q0)) as X3.
    pose proof (add_crash_rel RA ca' _ _ (with_alt_rel RA _ _ _ _ Q0 P0)) as X4.
    destruct P2 as [a b r r' alt alt' HA Hr Ha|e e' X], Q2 as [a2 b2 r2 r2' alt2 alt2' HA2 Hr2 Ha2|e2 e2' Y].
    - cbv zeta. rewrite (cmp_alt_rel _ _ _ _ Ha Ha2).
      destruct (Nat.compare (List.length ea') (List.length eb')); try assumption.
      destruct (cmp_last ea' eb'); try assumption. destruct (cmp_alt alt' alt2'); assumption.
    - assumption.
    - assumption.
    - rewrite (cmp_at_rel _ _ _ _ X Y). pose proof (lmax_rel _ _ _ _ X Y) as M.
      destruct (lmax e e2) as [m k], (lmax e' e2') as [m' k'].
      destruct M as [M1 M2]. cbn in M1, M2. subst k'.
      destruct (cmp_at e' e2'); try assumption.
      destruct (Nat.compare (List.length ea') (List.length eb')); try assumption.
      destruct (cmp_last ea' eb'); try assumption. constructor; [assumption|]. constructor. exact M1. }
  destruct P1; [|exact G].
  destruct P2; [|exact G]. exact P0.
Qed.

Lemma rel_choice_from {A B} (RA : A -> B -> Prop) ps ps' : Forall2 (rel_p RA) ps ps' ->
  forall alt alt', ropt rel_loc alt alt' ->
  rel_p RA (p_choice_from alt ps) (p_choice_from alt' ps').
Proof.
  induction 1 as [|p p' ps ps' P _ IH]; intros alt alt' H ts ts' T; cbn [p_choice_from].
  - destruct H.
    + constructor; constructor. apply unexpected_rel. exact T.
    + apply fail_rel. assumption.
  - specialize (P ts ts' T). destruct P as [errs errs' o o' c P1 P2]. cbn [r_out r_errs r_crash].
    destruct P2 as [a b r r' al al' HA Hr Ha|e e' X].
    + constructor; [assumption|]. constructor; assumption.
    + pose proof (merge_alts_rel alt alt' (Some e) (Some e') H (Ropt_some _ _ _ X)) as M.
      destruct (merge_alts alt (Some e)) as [m k], (merge_alts alt' (Some e')) as [m' k'].
      destruct M as [M1 M2]. cbn in M1, M2. subst k'. apply add_crash_rel. apply IH; assumption.
Qed.

Lemma rel_choice {A B} (RA : A -> B -> Prop) ps ps' : Forall2 (rel_p RA) ps ps' ->
  rel_p RA (p_choice ps) (p_choice ps').
Proof. intros H. apply rel_choice_from; [exact H|constructor]. Qed.

Lemma rel_or_not {A B} (RA : A -> B -> Prop) p p' : rel_p RA p p' ->
  rel_p (ropt RA) (p_or_not p) (p_or_not p').
Proof.
  intros P ts ts' T. specialize (P ts ts' T). unfold p_or_not.
  destruct P as [errs errs' o o' c P1 P2]. cbn [r_out r_errs r_crash].
  destruct P2 as [a b r r' al al' HA Hr Ha|e e' X].
  - constructor; [assumption|]. constructor; [constructor|..]; assumption.
  - constructor; constructor; [constructor|assumption|constructor; assumption].
Qed.

Lemma rel_rewind {A B} (RA : A -> B -> Prop) p p' : rel_p RA p p' ->
  rel_p RA (p_rewind p) (p_rewind p').
Proof.
  intros P ts ts' T. specialize (P ts ts' T). unfold p_rewind.
  destruct P as [errs errs' o o' c P1 P2]. cbn [r_out r_errs r_crash]. constructor; [assumption|].
  destruct P2; constructor; assumption.
Qed.

Lemma rel_repeat_loop {A B} (RA : A -> B -> Prop) p p' least most : rel_p RA p p' ->
  forall fuel errs errs' outs outs' alt alt' old cr ts ts',
  Forall2 rel_loc errs errs' -> Forall2 RA outs outs' -> ropt rel_loc alt alt' -> rel_toks ts ts' ->
  rel_res (Forall2 RA) (repeat_loop fuel p least most errs outs alt old cr ts)
                       (repeat_loop fuel p' least most errs' outs' alt' old cr ts').
Proof.
  intros P. induction fuel as [|fuel IH]; intros errs errs' outs outs' alt alt' old cr ts ts' He Ho Ha T;
    cbn [repeat_loop].
  - constructor; [assumption|]. constructor; [apply Forall2_rev|..]; assumption.
  - rewrite (Forall2_length' _ _ _ Ho).
    destruct (match most with Some m => m <=? List.length outs' | None => false end).
    + constructor; [assumption|]. constructor; [apply Forall2_rev|..]; assumption.
    + specialize (P ts ts' T). destruct P as [es es' o o' c P1 P2]. cbn [r_out r_errs r_crash].
      destruct P2 as [a b r r' al al' HA Hr Hl|e e' X].
      * pose proof (merge_alts_rel _ _ _ _ Ha Hl) as M.
        destruct (merge_alts alt al) as [m k], (merge_alts alt' al') as [m' k'].
        destruct M as [M1 M2]. cbn in M1, M2. subst k'. rewrite (rel_toks_length _ _ Hr).
        destruct (match old with Some o => o =? List.length r' | None => false end).
        -- constructor; [apply Forall2_app; assumption|]. constructor; [|assumption..].
           apply Forall2_rev. constructor; assumption.
        -- apply IH; try assumption; [apply Forall2_app; assumption|constructor; assumption].
      * destruct (List.length outs' <? least).
        -- constructor; [apply Forall2_app; assumption|]. constructor. exact X.
        -- pose proof (merge_alts_rel alt alt' (Some e) (Some e') Ha (Ropt_some _ _ _ X)) as M.
           destruct (merge_alts alt (Some e)) as [m k], (merge_alts alt' (Some e')) as [m' k'].
           destruct M as [M1 M2]. cbn in M1, M2. subst k'. constructor; [assumption|].
           constructor; [apply Forall2_rev|..]; assumption.
Qed.

Lemma rel_repeat {A B} (RA : A -> B -> Prop) least most p p' : rel_p RA p p' ->
  rel_p (Forall2 RA) (p_repeat least most p) (p_repeat least most p').
Proof.
  intros P ts ts' T. unfold p_repeat. rewrite (rel_toks_length _ _ T).
  apply rel_repeat_loop; try assumption; constructor.
Qed.

Lemma rel_repeated {A B} (RA : A -> B -> Prop) p p' : rel_p RA p p' ->
  rel_p (Forall2 RA) (p_repeated p) (p_repeated p').
Proof. apply rel_repeat. Qed.

Lemma rel_exactly {A B} (RA : A -> B -> Prop) n p p' : rel_p RA p p' ->
  rel_p (Forall2 RA) (p_exactly n p) (p_exactly n p').
Proof. apply rel_repeat. Qed.

Lemma rel_until_loop {A B} (RA : A -> B -> Prop) p p' : rel_p RA p p' ->
  forall ts ts', rel_toks ts ts' -> forall alt alt' outs cr, ropt rel_loc alt alt' ->
  rel_res (rprod eq RA) (until_loop p alt outs cr ts) (until_loop p' alt' outs cr ts').
Proof.
  intros P ts ts' T. induction T as [|[c s] [c' s'] ts ts' [H1 H2] T IH]; intros alt alt' outs cr Ha;
    cbn [until_loop].
  - specialize (P [] [] (Forall2_nil _)). destruct P as [es es' o o' k P1 P2]. cbn [r_out r_errs r_crash].
    destruct P2 as [a b r r' al al' HA Hr Hl|e e' X].
    + pose proof (merge_alts_rel _ _ _ _ Ha Hl) as M.
      destruct (merge_alts alt al) as [m k2], (merge_alts alt' al') as [m' k2'].
      destruct M as [M1 M2]. cbn in M1, M2. subst k2'. constructor; [assumption|].
      constructor; [split|..]; auto.
    + constructor; [assumption|]. constructor. exact X.
  - cbn in H1. subst c'.
    specialize (P ((c, s) :: ts : toks S1) ((c, s') :: ts' : toks S2)
                  (Forall2_cons (c, s) (c, s') (conj eq_refl H2) T)).
    match goal with |- rel_res _ (match r_out ?x with _ => _ end) (match r_out ?y with _ => _ end) =>
      change (rel_res RA x y) in P; destruct P as [es es' o o' k P1 P2] end.
    cbn [r_out r_errs r_crash].
    destruct P2 as [a b r r' al al' HA Hr Hl|e e' X].
    + pose proof (merge_alts_rel _ _ _ _ Ha Hl) as M.
      destruct (merge_alts alt al) as [m k2], (merge_alts alt' al') as [m' k2'].
      destruct M as [M1 M2]. cbn in M1, M2. subst k2'. constructor; [assumption|].
      constructor; [split|..]; auto.
    + pose proof (merge_alts_rel alt alt' (Some e) (Some e') Ha (Ropt_some _ _ _ X)) as M.
      destruct (merge_alts alt (Some e)) as [m k2], (merge_alts alt' (Some e')) as [m' k2'].
      destruct M as [M1 M2]. cbn in M1, M2. subst k2'. apply IH. exact M1.
Qed.

Lemma rel_take_until {A B} (RA : A -> B -> Prop) p p' : rel_p RA p p' ->
  rel_p (rprod eq RA) (p_take_until p) (p_take_until p').
Proof. intros P ts ts' T. apply rel_until_loop; [exact P|exact T|constructor]. Qed.

Lemma skip_to_rel f ts ts' : rel_toks ts ts' -> ropt rel_toks (skip_to f ts) (skip_to f ts').
Proof.
  induction 1 as [|[c s] [c' s'] ts ts' [H1 H2] T IH]; cbn; [constructor|].
  cbn in H1. subst c'. destruct (f c); [|exact IH]. constructor. constructor; [split; auto|exact T].
Qed.

Lemma rel_recover {A B} (RA : A -> B -> Prop) f x x' p p' : RA x x' -> rel_p RA p p' ->
  rel_p RA (p_recover_skip_until f x p) (p_recover_skip_until f x' p').
Proof.
  intros X P ts ts' T. specialize (P ts ts' T). unfold p_recover_skip_until.
  destruct P as [es es' o o' k P1 P2]. cbn [r_out r_errs r_crash].
  destruct P2 as [a b r r' al al' HA Hr Hl|e e' Y].
  - constructor; [assumption|]. constructor; assumption.
  - destruct (skip_to_rel f ts ts' T).
    + constructor; [assumption|]. constructor. exact Y.
    + constructor; [apply Forall2_app; repeat constructor; assumption|].
      constructor; [assumption..|constructor].
Qed.

Definition rel_sep (x : option (located S1) * toks S1 * list crash)
    (y : option (located S2) * toks S2 * list crash) : Prop :=
  ropt rel_loc (fst (fst x)) (fst (fst y)) /\ rel_toks (snd (fst x)) (snd (fst y)) /\ snd x = snd y.

Lemma sep_or_not_rel {A B} (RA : A -> B -> Prop) d d' alt alt' ts ts' :
  rel_p RA d d' -> ropt rel_loc alt alt' -> rel_toks ts ts' ->
  rel_sep (sep_or_not d alt ts) (sep_or_not d' alt' ts').
Proof.
  intros P Ha T. specialize (P ts ts' T). unfold sep_or_not.
  destruct P as [es es' o o' k P1 P2]. cbn [r_out r_errs r_crash].
  destruct P2 as [a b r r' al al' HA Hr Hl|e e' Y].
  - pose proof (merge_alts_list_rel _ _ P1 _ _ Hl) as M.
    destruct (merge_alts_list al es) as [m k2], (merge_alts_list al' es') as [m' k2'].
    destruct M as [M1 M2]. cbn in M1, M2. subst k2'.
    pose proof (merge_alts_rel _ _ _ _ Ha M1) as N.
    destruct (merge_alts alt m) as [n k3], (merge_alts alt' m') as [n' k3'].
    destruct N as [N1 N2]. cbn in N1, N2. subst k3'. repeat split; assumption.
  - pose proof (merge_alts_list_rel _ _ P1 (Some e) (Some e') (Ropt_some _ _ _ Y)) as M.
    destruct (merge_alts_list (Some e) es) as [m k2], (merge_alts_list (Some e') es') as [m' k2'].
    destruct M as [M1 M2]. cbn in M1, M2. subst k2'.
    pose proof (merge_alts_rel _ _ _ _ Ha M1) as N.
    destruct (merge_alts alt m) as [n k3], (merge_alts alt' m') as [n' k3'].
    destruct N as [N1 N2]. cbn in N1, N2. subst k3'. repeat split; assumption.
Qed.

Inductive rel_sl {A B} (RA : A -> B -> Prop) :
  list (located S1) * list A * option (located S1) * toks S1 * option (located S1) * list crash ->
  list (located S2) * list B * option (located S2) * toks S2 * option (located S2) * list crash ->
  Prop :=
| RSL errs errs' outs outs' alt alt' ts ts' e e' c :
    Forall2 rel_loc errs errs' -> Forall2 RA outs outs' -> ropt rel_loc alt alt' -> rel_toks ts ts' ->
    ropt rel_loc e e' -> rel_sl RA (errs, outs, alt, ts, e, c) (errs', outs', alt', ts', e', c).

Lemma sep_loop_rel {A B C D} (RA : A -> B -> Prop) (RC : C -> D -> Prop) p p' d d' :
  rel_p RA p p' -> rel_p RC d d' ->
  forall fuel errs errs' outs outs' alt alt' cr ts ts',
  Forall2 rel_loc errs errs' -> Forall2 RA outs outs' -> ropt rel_loc alt alt' -> rel_toks ts ts' ->
  rel_sl RA (sep_loop fuel p d errs outs alt cr ts) (sep_loop fuel p' d' errs' outs' alt' cr ts').
Proof.
  intros P Dl. induction fuel as [|fuel IH]; intros errs errs' outs outs' alt alt' cr ts ts' He Ho Ha T;
    cbn [sep_loop].
  - constructor; try assumption. constructor.
  - specialize (Dl ts ts' T). destruct Dl as [es es' o o' k D1 D2]. cbn [r_out r_errs r_crash].
    destruct D2 as [a b r r' al al' HA Hr Hl|e e' Y].
    + pose proof (merge_alts_rel _ _ _ _ Ha Hl) as M.
      destruct (merge_alts alt al) as [m k2], (merge_alts alt' al') as [m' k2'].
      destruct M as [M1 M2]. cbn in M1, M2. subst k2'.
      specialize (P r r' Hr). destruct P as [fs fs' o o' k3 P1 P2]. cbn [r_out r_errs r_crash].
      destruct P2 as [x y u u' al2 al2' HX Hu Hl2|e e' Y].
      * pose proof (merge_alts_rel _ _ _ _ M1 Hl2) as N.
        destruct (merge_alts m al2) as [n k4], (merge_alts m' al2') as [n' k4'].
        destruct N as [N1 N2]. cbn in N1, N2. subst k4'.
        apply IH; try assumption; [|constructor; assumption].
        apply Forall2_app; [assumption|]. apply Forall2_app; assumption.
      * constructor; try assumption; [|constructor; assumption].
        apply Forall2_app; [assumption|]. apply Forall2_app; assumption.
    + constructor; try assumption; [apply Forall2_app; assumption|constructor; assumption].
Qed.

Lemma rel_separated {A B C D} (RA : A -> B -> Prop) (RC : C -> D -> Prop) p p' d d' :
  rel_p RA p p' -> rel_p RC d d' -> rel_p (Forall2 RA) (p_separated p d) (p_separated p' d').
Proof.
  intros P Dl ts ts' T. unfold p_separated.
  pose proof (sep_or_not_rel RC d d' None None ts ts' Dl (Ropt_none _) T) as S0.
  destruct (sep_or_not d None ts) as [[alt0 ts0] c0], (sep_or_not d' None ts') as [[alt0' ts0'] c0'].
  destruct S0 as [S0a [S0b S0c]]. cbn in S0a, S0b, S0c. subst c0'.
  pose proof (P ts0 ts0' S0b) as Q. destruct Q as [es es' o o' k P1 P2]. cbn [r_out r_errs r_crash].
  destruct P2 as [a b r r' al al' HA Hr Hl|e e' Y].
  - pose proof (merge_alts_rel _ _ _ _ S0a Hl) as M.
    destruct (merge_alts alt0 al) as [m k2], (merge_alts alt0' al') as [m' k2'].
    destruct M as [M1 M2]. cbn in M1, M2. subst k2'. rewrite (rel_toks_length _ _ T).
    pose proof (sep_loop_rel RA RC p p' d d' P Dl (S (List.length ts')) es es' [a] [b] m m'
                  (c0 ++ k ++ k2) r r' P1 (Forall2_cons _ _ HA (Forall2_nil _)) M1 Hr) as L.
    destruct L as [er er' outs outs' alt2 alt2' ts2 ts2' err err' c2 L1 L2 L3 L4 L5].
    pose proof (sep_or_not_rel RC d d' alt2 alt2' ts2 ts2' Dl L3 L4) as S1'.
    destruct (sep_or_not d alt2 ts2) as [[alt3 ts3] c3], (sep_or_not d' alt2' ts2') as [[alt3' ts3'] c3'].
    destruct S1' as [Sa [Sb Sc]]. cbn in Sa, Sb, Sc. subst c3'.
    pose proof (merge_alts_rel _ _ _ _ Sa L5) as N.
    destruct (merge_alts alt3 err) as [n k4], (merge_alts alt3' err') as [n' k4'].
    destruct N as [N1 N2]. cbn in N1, N2. subst k4'.
    constructor; [assumption|]. constructor; [apply Forall2_rev|..]; assumption.
  - pose proof (merge_alts_rel alt0 alt0' (Some e) (Some e') S0a (Ropt_some _ _ _ Y)) as M.
    destruct (merge_alts alt0 (Some e)) as [m k2], (merge_alts alt0' (Some e')) as [m' k2'].
    destruct M as [M1 M2]. cbn in M1, M2. subst k2'.
    constructor; [assumption|]. constructor; [constructor|assumption..].
Qed.

(** ** Running *)

Inductive rel_parsed {A B} (RA : A -> B -> Prop) : parsed S1 A -> parsed S2 B -> Prop :=
| RP_parsed a b : RA a b -> rel_parsed RA (Parsed a) (Parsed b)
| RP_rejected l l' : Forall2 rel_perr l l' -> rel_parsed RA (Rejected l) (Rejected l')
| RP_panicked : rel_parsed RA Panicked Panicked.

Lemma rel_loc_errs l l' : Forall2 rel_loc l l' -> Forall2 rel_perr (map l_err l) (map l_err l').
Proof. induction 1 as [|a b l l' H _ IH]; cbn; constructor; [destruct H; assumption|exact IH]. Qed.

Lemma rel_run {A B} (RA : A -> B -> Prop) p p' ts ts' : rel_p RA p p' -> rel_toks ts ts' ->
  rel_parsed RA (run p ts) (run p' ts').
Proof.
  intros P T. specialize (P ts ts' T). unfold run. destruct P as [es es' o o' k P1 P2].
  cbn [r_out r_errs r_crash]. destruct k; [|constructor].
  destruct P2 as [a b r r' al al' HA Hr Hl|e e' Y].
  - destruct P1 as [|x y l l' X P1]; [constructor; assumption|]. constructor.
    apply (rel_loc_errs (x :: l) (y :: l')). constructor; assumption.
  - constructor. apply rel_loc_errs. apply Forall2_app; [assumption|repeat constructor; assumption].
Qed.

End Param.
