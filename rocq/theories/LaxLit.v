(** Where the errors of strings, numbers and identifiers lie. *)

From Coq Require Import NArith PeanoNat List Bool String Lia.
From Verif Require Import Chars Ast Errors Chumsky Spans Grammar Safe GrammarSafe Kdl KdlChars Good GrammarNear
  LexLit LexIdent LexSpace SpanProps ErrSpec TokenSet ErrAt ErrGrammar LaxSpec LaxCalc LaxGrammar.
Import ListNotations.
Local Open Scope list_scope.

(** ** Raw strings *)

Definition raw_open (n : nat) : text := str "r" ++ repeat 0x23%N n ++ str """".

Lemma raw_join n s : raw_open n ++ s ++ raw_close n = 0x72%N :: repeat 0x23%N n ++ [0x22%N] ++ s ++ raw_close n.
Proof. unfold raw_open. cbn [str app]. rewrite <- app_assoc. reflexivity. Qed.

Lemma raw_inside n (b : text) : b <> [] -> prefix (raw_close n) (b ++ raw_close n) -> prefix (raw_close n) b.
Proof.
  intros N P. destruct (Nat.le_gt_cases (List.length (raw_close n)) (List.length b)) as [L|L].
  - apply (proj1 (prefix_app_short (raw_close n) b (raw_close n) L)). exact P.
  - exfalso. destruct P as [d X]. apply (f_equal (fun l => nth (List.length b) l 0%N)) in X.
    rewrite app_nth2, Nat.sub_diag in X by lia. rewrite (app_nth1 (raw_close n) d) in X by exact L.
    unfold raw_close in X. cbn [nth] in X. destruct b as [|c b]; [congruence|]. cbn [List.length nth] in X.
    rewrite raw_close_len in L. cbn [List.length] in L.
    assert (In (nth (List.length b) (repeat 0x23%N n) 0%N) (repeat 0x23%N n)) as H.
    { apply nth_In. rewrite repeat_length. lia. }
    apply repeat_spec in H. pose proof (eq_trans X H) as Y. discriminate Y.
Qed.

Lemma raw_closes n s : (forall a b, s = a ++ b -> b <> [] -> ~ prefix (raw_close n) b) ->
  lax_raw (raw_open n ++ s ++ raw_close n).
Proof.
  intros H. exists s. rewrite raw_join. constructor. intros a b X N P. apply (H a b X N), raw_inside; assumption.
Qed.

Section LaxLit.
Variable t : text.
Variable V : text -> Prop.

#[local] Hint Extern 0 (env span) => exact (ErrAt.E t) : typeclass_instances.

Notation okv := (okv t V).
Notation at_ := (at_ t V).
Notation gl := (gl t V).
Notation room := (room V).

Lemma okv_exactly n x : okv (word (repeat x n)) (p_exactly n (p_just x)).
Proof.
  split; [apply inh_word|]. intros pre q T R.
  eapply at_weaken with (Q := fun m _ outs => m = repeat x (List.length outs) /\ List.length outs = n);
    [intros m q' outs _ [-> ->]; apply K_full; reflexivity|].
  assert (at_ (p_exactly n (p_just x)) pre q (fun m _ outs => m = repeat x (List.length outs))) as H.
  - unfold p_exactly. eapply at_weaken; [|apply (at_repeat t V (fun outs m _ => m = repeat x (List.length outs))); [exact T|reflexivity|]].
    + intros m q' outs _ [H _]. exact H.
    + intros outs ms q' X T' -> L.
      assert (forall k, k <= n -> pfx (word (repeat x n)) (repeat x k)) as P.
      { intros k Hk. exists (repeat x (n - k)). unfold word. rewrite <- repeat_app. f_equal. lia. }
      eapply at_weaken; [|apply at_just; [exact T'| |]].
      * intros m q'' a _ [-> ->]. rewrite app_length, repeat_app. reflexivity.
      * apply (room_read V (word (repeat x n)) pre _ q'); [rewrite <- X; exact R|apply P; lia].
      * intros _ Nq. rewrite <- app_assoc. apply R.
        -- change [x] with (repeat x 1). rewrite <- repeat_app. apply P. lia.
        -- rewrite X. destruct q' as [|c q']; [congruence|]. apply near_instead.
  - eapply at_weaken; [|eapply at_good; [| |exact H]].
    + intros m q' outs _ [-> G]. apply good_exactly in G. destruct G as [_ L]. split; [reflexivity|exact L].
    + unfold p_exactly. apply quiet_repeat, quiet_just.
    + apply S_exactly; [intros k; apply safe_just|apply eats_just].
Qed.

Lemma okv_raw_end n : okv (word (raw_close n)) (raw_end n).
Proof.
  unfold raw_end. eapply okv_weaken; [|apply okv_ignore_then; [apply okv_just|apply okv_ignored, okv_exactly]].
  apply cat_word.
Qed.

Definition raw_head : parser span nat :=
  p_then_ignore
    (p_ignore_then (p_just 0x72%N) (p_map (@List.length char) (p_repeated (p_just 0x23%N))))
    (p_just 0x22%N).

Lemma raw_head_sound ts n rest : good (raw_head ts) n rest ->
  exists s, ts = s ++ rest /\ Kdl.chars s = raw_open n.
Proof.
  unfold raw_head. intros G. gi.
  match goal with H : good (p_repeated _ _) _ _ |- _ => rename H into G3 end.
  apply (repeated_one_sound _ _ _ _ _ (one_just 0x23%N)) in G3.
  destruct G3 as [u [-> [<- [F _]]]].
  match goal with |- exists s, ?a :: u ++ ?b :: _ = _ /\ _ => exists (a :: u ++ [b]) end.
  split; [cbn [app]; rewrite <- app_assoc; reflexivity|].
  unfold raw_open. ch. rewrite (repeat_forall _ _ F) at 1. reflexivity.
Qed.

Lemma sharps n s : star (word [0x23%N]) s -> exists k, repeat 0x23%N n ++ s = repeat 0x23%N (n + k).
Proof.
  intros H. revert n. induction H as [|a b A _ IH]; intros n.
  - exists 0. rewrite app_nil_r, Nat.add_0_r. reflexivity.
  - unfold word in A. subst a. destruct (IH (n + 1)) as [k X]. exists (1 + k).
    rewrite Nat.add_assoc, <- X, repeat_app, <- app_assoc. reflexivity.
Qed.

Lemma inh_raw : inhabited lax_raw.
Proof.
  exists (raw_open 0 ++ [] ++ raw_close 0). apply raw_closes.
  intros a b X N. symmetry in X. apply app_eq_nil in X. tauto.
Qed.

Lemma okv_raw : okv lax_raw raw_string.
Proof.
  split; [apply inh_raw|]. intros pre q T R. rewrite raw_string_eq. unfold LaxCalc.at_.
  assert (V pre) as V0 by (eapply room_here; [apply inh_raw|exact R]).
  eapply at_map with (Q := fun m q' _ => K lax_raw m q'); [intros m q' a _ H; exact H|].
  eapply at_weaken; [|apply (at_bind t V (fun m _ n => m = raw_open n) (fun m1 _ m2 q' _ => K lax_raw (m1 ++ m2) q'));
    [exact T| |]].
  - intros m q' a _ (m1 & m2 & -> & _ & H). exact H.
  - eapply at_weaken with (Q := fun m q' n => True /\ m = raw_open n); [intros m q' n _ [_ H]; exact H|].
    apply at_sound with (R := fun m n => m = raw_open n); [| |exact raw_head_sound|].
    + quiets.
    + apply S_then_ignore; auto with safe. apply S_ignore_then; auto with safe.
      apply S_map, S_repeated; auto with safe. eat1.
    + eapply at_weaken; [|apply (proj2 (okv_then_ignore t V _ _ _ _ (okv_ignore_then t V _ _ _ _ (okv_just t V 0x72%N) (okv_map t V _ _ _ (okv_repeat t V _ 0 None _ (okv_just t V 0x23%N)))) (okv_just t V 0x22%N))); [exact T|]]; [auto|].
      intros m P N. apply R; [|exact N]. destruct P as [s P].
      inversion P as [a b [a1 a2 A1 A2] B X]; subst. unfold word in *. subst a1 b.
      destruct (sharps 0 a2 A2) as [k X']. cbn [repeat app] in X'. subst a2.
      exists (s ++ [] ++ raw_close k). rewrite app_assoc, <- X.
      refine (eq_ind (raw_open k ++ [] ++ raw_close k) lax_raw _ _ _).
      * apply raw_closes. intros x y X1 X2. symmetry in X1. apply app_eq_nil in X1. tauto.
      * unfold raw_open. cbn [str app]. rewrite <- !app_assoc. reflexivity.
  - intros m q' n X T' ->. apply at_map_err_with_span.
    + intros e e' O G M. unfold raw_string_err in M.
      destruct (is_eoi_error (l_err e)) eqn:Z; [|injection M as <-; destruct e; exact G].
      eapply unclosed_at; [exact T'|exact T|exact V0| |exact G|exact Z|exact M].
      rewrite <- byte_len_sharps. pose proof (before_at t pre (raw_open n) q' (l_rem e) T') as [_ Y].
      fold (raw_open n). rewrite Y. reflexivity.
    + eapply at_take_until with (J := fun ms q2 => forall a b, ms = a ++ b -> b <> [] -> ~ prefix (raw_close n) (b ++ q2)).
      * exact T'.
      * intros a b Y N. symmetry in Y. apply app_eq_nil in Y. tauto.
      * intros ms q2 Y T2 HJ. split.
        -- assert (lax_raw (raw_open n ++ ms ++ raw_close n)) as L.
           { apply raw_closes. intros a b Z N [d P]. apply (HJ a b Z N). exists (d ++ q2). rewrite P, app_assoc. reflexivity. }
           eapply at_weaken; [|apply (proj2 (okv_raw_end n)); [exact T2|]].
           ++ intros m q3 u Z HK. rewrite app_assoc.
              eapply (K_after t V) with (La := word (raw_open n ++ ms)) (Lb := word (raw_close n)); [apply inh_word| | |exact HK].
              ** intros a b A B. unfold word in A, B. subst a b. rewrite <- app_assoc. exact L.
              ** apply K_full. reflexivity.
           ++ intros m [s Hm] N. rewrite <- !app_assoc. apply R.
              ** exists s. rewrite <- !app_assoc, <- Hm. exact L.
              ** rewrite X, Y. apply near_app, near_app, N.
        -- intros c q3 -> F a b Z N. apply raw_end_failed in F. rewrite chars_toks in F.
           destruct b as [|d b] using rev_ind; [congruence|]. rewrite app_assoc in Z. apply app_inj_tail in Z.
           destruct Z as [-> <-]. rewrite <- app_assoc. destruct b as [|e b]; [exact F|].
           apply (HJ a (e :: b)); [reflexivity|discriminate].
Qed.

(** ** Escaped strings *)

Definition plain_char : lang := one_of (fun c => c <> 0x22%N /\ c <> 0x5C%N).
Definition lax_escape : lang :=
  alt (one_of (fun c => In c (map fst simple_escapes))) (cat (word [0x75%N]) (star plain_char)).

Lemma okv_try_map {A B} L (f : A -> span -> B + perror span) (p : parser span A) : okv L p ->
  (forall a pre (sp : span), sp_start sp = byte_len pre ->
     match f a sp with inl _ => True | inr e => refusal pre e end) ->
  okv L (p_try_map f p).
Proof.
  intros [I P] F. split; [exact I|]. intros pre q T R.
  eapply at_try_map; [exact T|eapply room_here; eassumption| |apply P; assumption].
  intros m q' a sp X HK S. specialize (F a pre sp S). cbn beta. destruct (f a sp); [exact HK|exact F].
Qed.

Lemma plain_star s : Forall (fun c => esc_stop c = false) s -> star plain_char s.
Proof.
  induction 1 as [|c s C _ IH]; [constructor|]. apply (Star_cons plain_char [c]); [|exact IH].
  exists c. split; [|reflexivity]. unfold esc_stop in C. apply orb_false_iff in C. destruct C as [C1 C2].
  apply orb_false_iff in C1. destruct C1 as [_ C1]. apply N.eqb_neq in C1, C2. auto.
Qed.

Lemma hex_plain c : digit_char 16 c -> c <> 0x22%N /\ c <> 0x5C%N.
Proof. intros H. apply is_digit_spec in H; [|lia]. split; intros ->; discriminate H. Qed.

Lemma labelled_ok pre c q lab exp : t = pre ++ c :: q -> V pre ->
  (forall k x, In k exp -> fits k x -> V (pre ++ [x])) ->
  gl (Located (List.length (c :: q)) (EUnexpected (Some lab) (Span (byte_len pre) (byte_len (pre ++ [c]))) (TChar c) exp)).
Proof.
  intros T HV F. exists pre, (c :: q). split; [exact T|]. split; [reflexivity|]. split; [|split; [discriminate|]].
  - cbn. constructor; [|constructor]. exists pre. split; [|exact HV]. split; [exists (c :: q); exact T|reflexivity].
  - split; [intros k x H1 H2 _; eapply F; eassumption|discriminate].
Qed.

Lemma okv_hex : okv (one_of (digit_char 16)) (p_filter_map esc_hex).
Proof.
  assert (inhabited (one_of (digit_char 16))) as I.
  { exists [0x30%N], 0x30%N. split; [apply is_digit_spec; [lia|reflexivity]|reflexivity]. }
  split; [exact I|]. intros pre q T R.
  apply at_filter_map; [exact T|eapply room_here; eassumption|].
  intros c q' ->. unfold esc_hex. destruct (is_digit 16 c) eqn:D.
  - apply K_full. exists c. split; [apply is_digit_spec; [lia|exact D]|reflexivity].
  - apply labelled_ok; [exact T|eapply room_here; eassumption|].
    intros k x [<-|[]] F. remember (TKind _) as k eqn:Ek. destruct F; discriminate Ek.
Qed.

Lemma okv_simple : okv (one_of (fun c => In c (map fst simple_escapes))) (p_filter_map esc_simple).
Proof.
  assert (inhabited (one_of (fun c => In c (map fst simple_escapes)))) as I.
  { exists [0x22%N], 0x22%N. split; [left; reflexivity|reflexivity]. }
  split; [exact I|]. intros pre q T R.
  apply at_filter_map; [exact T|eapply room_here; eassumption|].
  intros c q' ->. destruct (esc_simple (Span (byte_len pre) (byte_len (pre ++ [c]))) c) as [v|e] eqn:X.
  - apply esc_simple_spec in X. apply K_full. exists c. split; [|reflexivity]. apply (in_map fst) in X. exact X.
  - assert (e = EUnexpected (Some "invalid escape char"%string) (Span (byte_len pre) (byte_len (pre ++ [c]))) (TChar c)
             (set_extend [] (map TChar [0x22; 0x5C; 0x2F; 0x62; 0x66; 0x6E; 0x72; 0x74]%N))) as ->.
    { revert X. unfold esc_simple.
      repeat match goal with |- context [if ?b then _ else _] =>
        lazymatch type of b with bool => destruct b; [discriminate|] end end.
      intros X. injection X as <-. reflexivity. }
    apply labelled_ok; [exact T|eapply room_here; eassumption|].
    intros k x H F. apply R; [|exact (near_instead [] c q' x)]. apply pfx_self. exists x. split; [|reflexivity].
    vm_compute in H. repeat destruct H as [<-|H]; try (destruct H);
      inversion F; subst; cbn; tauto.
Qed.

Lemma okv_code : okv (star plain_char) (p_recover_skip_until esc_stop 0%N
        (p_try_map esc_code
          (p_delimited (p_repeat 1 (Some 6%nat) (p_filter_map esc_hex)) (p_just 0x7B%N) (p_just 0x7D%N)))).
Proof.
  assert (okv (star plain_char) (p_try_map esc_code
          (p_delimited (p_repeat 1 (Some 6%nat) (p_filter_map esc_hex)) (p_just 0x7B%N) (p_just 0x7D%N)))) as [I P].
  - apply okv_try_map.
    + eapply okv_weaken; [|unfold p_delimited; apply okv_then_ignore; [apply okv_ignore_then; [apply okv_just|apply okv_repeat, okv_hex]|apply okv_just]].
      intros s [a b [a1 a2 A1 A2] B]. unfold word in *. subst a1 b.
      apply star_app; [apply star_app|]; try (apply star_one; eexists; split; [|reflexivity]; split; discriminate).
      eapply star_impl; [|exact A2]. intros u (c & C & ->). exists c. split; [apply hex_plain, C|reflexivity].
    + intros ds pre sp S. unfold esc_code. destruct (is_scalar _); [exact I|].
      split; [|split; [reflexivity|exact I]]. cbn. constructor; [exact S|constructor].
  - split; [exact I|]. intros pre q T R. apply at_recover; [|apply P; assumption].
    intros m q' _ F. apply K_full, plain_star, F.
Qed.

Lemma inh_escape : inhabited lax_escape.
Proof. exists [0x22%N]. apply Alt_l. exists 0x22%N. split; [left; reflexivity|reflexivity]. Qed.

Lemma okv_esc_char : okv lax_escape esc_char.
Proof.
  unfold esc_char. apply okv_alt; [apply okv_simple|]. apply okv_ignore_then; [apply okv_just|apply okv_code].
Qed.

Lemma okv_str_char : okv (star lax_char) str_char.
Proof.
  unfold str_char. apply okv_or.
  - eapply okv_weaken; [|apply (okv_filter t V (fun c => c <> 0x22%N /\ c <> 0x5C%N))].
    + intros s (c & (C1 & C2) & ->). apply star_one. constructor; assumption.
    + exists 0x61%N. split; discriminate.
    + intros c C. apply andb_prop in C. destruct C as [C1 C2].
      apply negb_true_iff in C1, C2. apply N.eqb_neq in C1, C2. auto.
  - eapply okv_weaken; [|apply okv_ignore_then; [apply okv_just|apply okv_esc_char]].
    intros s [a b A B]. unfold word in A. subst a. destruct B as [b (c & C & ->)|b [u v U W]].
    + apply star_one. apply LC_simple, C.
    + unfold word in U. subst u. rewrite app_assoc. apply star_app; [apply star_one; exact LC_code|].
      eapply star_impl; [|exact W]. intros w (c & (C1 & C2) & ->). constructor; assumption.
Qed.

Lemma star_star L s : star (star L) s -> star L s.
Proof. induction 1 as [|a b A _ IH]; [constructor|]. apply star_app; assumption. Qed.

Lemma okv_escaped : okv lax_escaped escaped_string.
Proof.
  rewrite escaped_string_eq. unfold p_ignore_then. apply okv_map.
  assert (inhabited lax_escaped) as I.
  { exists ([0x22%N] ++ [] ++ [0x22%N]). constructor; [reflexivity|]. constructor; [constructor|reflexivity]. }
  split; [exact I|]. intros pre q T R.
  assert (V pre) as V0 by (eapply room_here; [exact I|exact R]).
  assert (okv (cat (star lax_char) (word [0x22%N])) (p_then_ignore (p_repeated str_char) (p_just 0x22%N))) as P.
  { apply okv_then_ignore; [|apply okv_just]. eapply okv_weaken; [|apply okv_repeat, okv_str_char]. apply star_star. }
  eapply at_weaken; [|apply (at_bind t V (fun m _ (_ : char) => m = [0x22%N]) (fun m1 _ m2 q' _ => K lax_escaped (m1 ++ m2) q'));
    [exact T| |]].
  - intros m q' a _ (m1 & m2 & -> & _ & H). exact H.
  - eapply at_weaken; [|apply at_just; [exact T|exact V0|]].
    + intros m q' a _ [-> _]. reflexivity.
    + intros _ Nq. apply R; [|destruct q as [|c q]; [congruence|]; exact (near_instead [] c q _)].
      exists [0x22%N]. apply (Cat _ _ [0x22%N] [0x22%N]); [reflexivity|].
      apply (Cat _ _ [] [0x22%N]); [constructor|reflexivity].
  - intros m q' c X T' ->. apply at_map_err_with_span.
    + intros e e' O G M. unfold string_err in M.
      destruct (is_eoi_error (l_err e)) eqn:Z; [|injection M as <-; destruct e; exact G].
      eapply unclosed_at; [exact T'|exact T|exact V0| |exact G|exact Z|exact M].
      pose proof (before_at t pre (str """") q' (l_rem e) T') as [_ Y]. cbn [str byte_len] in Y.
      refine (eq_trans (f_equal sp_start Y) _). reflexivity.
    + eapply okv_step with (La := word [0x22%N]); [exact P| |exact T'|apply K_full; reflexivity|rewrite <- X; exact R].
      intros a b. apply Cat.
Qed.

Lemma okv_string : okv (alt lax_raw lax_escaped) string_.
Proof. apply okv_alt; [apply okv_raw|apply okv_escaped]. Qed.

(** ** Numbers *)

Definition numeric : lang := fun s => exists l, number_text s l.

Lemma okv_sign : okv (opt (one_of sign_char)) opt_sign.
Proof.
  unfold opt_sign. apply okv_or_not, okv_or; (eapply okv_weaken; [|apply okv_just]);
    intros s <-; eexists; (split; [|reflexivity]); [right|left]; reflexivity.
Qed.

Lemma okv_digit r : (1 <= r <= 16)%N -> okv (one_of (digit_char r)) (digit r).
Proof.
  intros L. unfold digit. apply okv_filter.
  - exists 0x30%N. exists 0%N. split; [lia|]. left. reflexivity.
  - intros c C. apply is_digit_spec in C; [exact C|lia].
Qed.

Lemma okv_digits r : (r <= 16)%N -> okv (star (one_of (digit_or_underscore r))) (digits r).
Proof.
  intros L. unfold digits. apply okv_repeat, okv_filter.
  - exists 0x5F%N. left. reflexivity.
  - intros c C. apply orb_prop in C. destruct C as [C|C]; [left; apply N.eqb_eq, C|right].
    apply is_digit_spec in C; [exact C|lia].
Qed.

Lemma star_all (P : char -> Prop) s : star (one_of P) s -> Forall P s.
Proof.
  induction 1 as [|a b (c & C & ->) _ IH]; [constructor|]. constructor; assumption.
Qed.

Lemma sign_opt s : opt (one_of sign_char) s -> opt_sign_text s.
Proof. intros [|u (c & C & ->)]; constructor. exact C. Qed.

Lemma stripped_some s : exists u, stripped s u.
Proof.
  induction s as [|c s [u IH]]; [exists []; constructor|].
  destruct (N.eq_dec c 0x5F%N) as [->|N]; [exists u; constructor; exact IH|exists (c :: u); constructor; assumption].
Qed.

Definition frac : lang :=
  opt (cat (cat (word [0x2E%N]) (one_of (digit_char 10))) (star (one_of (digit_or_underscore 10)))).
Definition expo : lang :=
  opt (cat (cat (one_of (fun c => c = 0x65%N \/ c = 0x45%N)) (opt (one_of sign_char))) (star (one_of (digit_or_underscore 10)))).

Lemma frac_text s : frac s -> fraction_text s.
Proof.
  intros [|u [a b [a1 a2 A (c & C & ->)] B]]; [constructor|]. unfold word in A. subst a1. cbn [app].
  constructor. constructor; [exact C|apply star_all, B].
Qed.

Lemma expo_text s : expo s -> exponent_text s.
Proof.
  intros [|u [a b [a1 a2 (c & C & ->) A] B]]; [constructor|]. cbn [app].
  constructor; [exact C|apply sign_opt, A|apply star_all, B].
Qed.

Lemma okv_fraction : okv frac fraction.
Proof.
  unfold fraction. apply okv_map, okv_or_not, okv_map, okv_then; [|apply okv_digits; lia].
  apply okv_map, okv_then; [apply okv_just|apply okv_digit; lia].
Qed.

Lemma okv_exponent : okv expo exponent.
Proof.
  unfold exponent. apply okv_map, okv_or_not, okv_map, okv_then; [|apply okv_digits; lia].
  apply okv_map, okv_then; [|apply okv_sign].
  apply okv_or; (eapply okv_weaken; [|apply okv_just]); intros s <-; eexists; (split; [|reflexivity]); tauto.
Qed.

Lemma okv_decimal : okv numeric decimal_number.
Proof.
  unfold decimal_number. eapply okv_weaken; [|apply okv_map, okv_map, okv_then; [apply okv_map, okv_then;
    [apply okv_map, okv_then; [apply okv_map, okv_then; [apply okv_sign|apply okv_digit; lia]|apply okv_digits; lia]
    |apply okv_fraction]|apply okv_exponent]].
  intros s [a e [a' f [a'' ds [sg d S (c & C & ->)] D] F] Ex]. apply sign_opt in S. apply star_all in D.
  apply frac_text in F. apply expo_text in Ex.
  assert (integer_text 10 (c :: ds)) as I by (constructor; assumption).
  rewrite <- !app_assoc. cbn [app]. change (c :: ds ++ f ++ e) with ((c :: ds) ++ f ++ e).
  destruct (f ++ e) as [|x y] eqn:Y.
  - rewrite app_nil_r. destruct (stripped_some (c :: ds)) as [u U]. eexists. eapply Num_int; eassumption.
  - rewrite <- Y. destruct (stripped_some ((c :: ds) ++ f ++ e)) as [u U]. eexists. eapply Num_decimal; try eassumption.
    rewrite Y. discriminate.
Qed.

Lemma okv_radix : okv numeric radix_number.
Proof.
  unfold radix_number. eapply okv_weaken; [|apply okv_map, okv_then; [apply okv_then_ignore; [apply okv_sign|apply okv_just]|]].
  2: { apply (okv_choice t V (fun s => exists x n r s', In (x, n, r) radix_prefixes /\ s = x :: s' /\ integer_text n s')).
    - exists [0x62%N; 0x30%N], 0x62%N, 2%N, Bin, [0x30%N]. split; [left; reflexivity|]. split; [reflexivity|].
      constructor; [|constructor]. exists 0%N. split; [lia|]. left. reflexivity.
    - intros p Hp.
      assert (forall x n r, In (x, n, r) radix_prefixes -> (1 <= n <= 16)%N -> okv
        (fun s => exists x n r s', In (x, n, r) radix_prefixes /\ s = x :: s' /\ integer_text n s') (radix_digits x n r)) as H.
      { intros x n r H L. unfold radix_digits. eapply okv_weaken; [|apply okv_ignore_then; [apply okv_just|
          apply okv_map, okv_map, okv_then; [apply (okv_digit n); exact L|apply okv_digits; lia]]].
        intros s [a b A [b1 b2 (c & C & ->) B]]. unfold word in A. subst a. exists x, n, r, (c :: b2).
        split; [exact H|]. split; [reflexivity|]. constructor; [exact C|apply star_all, B]. }
      destruct Hp as [<-|[<-|[<-|[]]]]; apply H; try lia; cbn; tauto. }
  intros s [a b [sg z S Z] (x & n & r & s' & H & -> & I)]. unfold word in Z. subst z. apply sign_opt in S.
  destruct (stripped_some s') as [u U]. rewrite <- app_assoc. cbn [app]. eexists. eapply Num_radix; eassumption.
Qed.

Lemma okv_number : okv numeric number.
Proof. apply okv_or; [apply okv_radix|apply okv_decimal]. Qed.

End LaxLit.

(** A number cannot fail after its first digit. *)

Section Works.
Context {Sp : Type} {E : env Sp}.

Definition works {A} (r : presult Sp A) : Prop := exists a rest al, r_out r = Ok a rest al.

Lemma works_failed {A} (r : presult Sp A) : works r -> failed r -> False.
Proof. intros (a & rest & al & X) [e Y]. congruence. Qed.

Lemma works_map {A B} (f : A -> B) p ts : works (p ts) -> works (p_map f p ts).
Proof. intros (a & rest & al & X). exists (f a), rest, al. unfold p_map. cbn [r_out]. rewrite X. reflexivity. Qed.

Lemma works_bind {A B} (p : parser Sp A) (k : A -> parser Sp B) ts : works (p ts) -> (forall a ts, works (k a ts)) ->
  works (p_bind p k ts).
Proof.
  intros (a & rest & al & X) H. unfold p_bind. rewrite X. destruct (H a rest) as (b & rest' & al' & Y). rewrite Y.
  destruct (merge_alts al al') as [al2 c]. eexists _, _, _. reflexivity.
Qed.

Lemma works_then {A B} (p : parser Sp A) (k : parser Sp B) ts : works (p ts) -> (forall ts, works (k ts)) ->
  works (p_then p k ts).
Proof. intros H K. apply works_bind; [exact H|intros _; exact K]. Qed.

Lemma works_or_not {A} (p : parser Sp A) ts : works (p_or_not p ts).
Proof. unfold p_or_not. destruct (r_out (p ts)); eexists _, _, _; reflexivity. Qed.

Lemma works_loop {A} (p : parser Sp A) most n : forall errs outs al old cr ts,
  works (repeat_loop n p 0 most errs outs al old cr ts).
Proof.
  induction n as [|n IH]; intros errs outs al old cr ts; cbn [repeat_loop]; [eexists _, _, _; reflexivity|].
  destruct (match most with Some m => m <=? List.length outs | None => false end); [eexists _, _, _; reflexivity|].
  destruct (r_out (p ts)) as [a rest al'|e].
  - destruct (merge_alts al al') as [al2 c].
    destruct (match old with Some o => o =? List.length rest | None => false end); [eexists _, _, _; reflexivity|apply IH].
  - cbn [Nat.ltb Nat.leb]. destruct (merge_alts al (Some e)) as [al2 c]. eexists _, _, _. reflexivity.
Qed.

Lemma works_repeat {A} (p : parser Sp A) ts : works (p_repeated p ts).
Proof. apply works_loop. Qed.

Lemma works_or_r {A} (p p' : parser Sp A) ts : works (p' ts) -> works (p_or p p' ts).
Proof.
  intros (a & rest & al & X). unfold p_or. rewrite X.
  assert (forall c (r r' : presult Sp A), works r -> works r' -> works (add_crash c (with_alt r r'))) as W.
  { intros c r r' (a1 & r1 & al1 & X1) (a2 & r2 & al2 & X2). unfold with_alt, add_crash. rewrite X1, X2. cbn [r_out].
    try destruct (merge_alts _ _); eexists _, _, _; reflexivity. }
  assert (works (p' ts)) as W' by (eexists _, _, _; exact X).
  destruct (r_out (p ts)) as [a' rest' al'|e'] eqn:Y.
  - assert (works (p ts)) as W0 by (eexists _, _, _; exact Y).
    destruct (r_errs (p ts)); [exact W0|].
    repeat match goal with |- works (match ?b with _ => _ end) => destruct b end; apply W; assumption.
  - assert (works (add_crash (r_crash (p ts)) (with_alt (p' ts) (p ts)))) as W1.
    { unfold with_alt, add_crash. rewrite X, Y. cbn [r_out]. try destruct (merge_alts _ _); eexists _, _, _; reflexivity. }
    destruct (r_errs (p ts)); exact W1.
Qed.

End Works.
