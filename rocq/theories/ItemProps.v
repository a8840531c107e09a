(** Raw strings, numbers, and identifiers out of place. *)

From Coq Require Import NArith PeanoNat List Bool String Lia.
From Coq Require Import ZifyBool.
From Verif Require Import Chars Ast Errors Chumsky Spans Grammar DocSafe Kdl KdlText KdlChars
  Layout Good GrammarNear LexSpace LexLit LexIdent PropMap Items Nodes NodesComplete Erase
  Meaning LayoutMeans PrintMeans Observe LayoutProps Template LexProps.
Import ListNotations.
Local Open Scope list_scope.

(** What a plain item can be. *)
Lemma item_cases s i : @plain_item_at unit unit_env (plain s) i ->
  (exists l, literal_text s l /\ i = Argument (Value None (Spanned tt l)))
  \/ (exists st ty sv l, s = st ++ sv /\ type_text st ty /\ literal_text sv l
        /\ i = Argument (Value (Some (Spanned tt ty)) (Spanned tt l)))
  \/ (exists sk k sv v, s = sk ++ 0x3D%N :: chars sv /\ key_text sk k
        /\ @value_at unit unit_env sv v /\ i = Property (Spanned tt k) v).
Proof.
  intros P. remember (plain s) as u eqn:U.
  assert (chars u = s) as Cu by (subst; apply plain_chars). clear U.
  destruct P as [u v V|sk e u k v Kt Ee V].
  - destruct V as [u l L|ut u ty l T L].
    + left. exists l. rewrite Cu in L. rewrite uspan. auto.
    + right. left. exists (chars ut), ty, (chars u), l. rewrite !uspan.
      rewrite chars_app in Cu. auto.
  - right. right. exists (chars sk), k, u, v. rewrite uspan.
    destruct e as [ec es]. cbn [fst] in Ee. subst ec. rewrite chars_app in Cu.
    split; [symmetry; exact Cu|]. auto.
Qed.

(** ** Words *)

Definition word_char (c : char) : Prop := ident_char c \/ c = 0x21%N.

Lemma word_char_dec c : word_char c \/ nonident c.
Proof.
  destruct (ident_char_dec c); [left; left; assumption|].
  destruct (N.eq_dec c 0x21); [left; right; assumption|right; split; assumption].
Qed.

Lemma nonident_word c : nonident c -> ~ word_char c.
Proof. intros [A B] [C|C]; contradiction. Qed.

Lemma word_split a : forall b x y, Forall word_char a -> Forall word_char b -> stops x -> stops y ->
  a ++ x = b ++ y -> a = b /\ x = y.
Proof.
  induction a as [|a0 a IH]; intros b x y Fa Fb X Y Q; destruct b as [|b0 b]; cbn in Q.
  - auto.
  - subst x. inversion Fb; subst. exfalso. eapply nonident_word; [|eassumption]. eapply X. reflexivity.
  - subst y. inversion Fa; subst. exfalso. eapply nonident_word; [|eassumption]. eapply Y. reflexivity.
  - injection Q as -> Q. inversion Fa; inversion Fb; subst.
    destruct (IH b x y) as [-> ->]; auto.
Qed.

Lemma follow_word c t : follow (c :: t) -> word_char c -> c = 0xFEFF%N.
Proof.
  intros F [[L [P [Nl W]]]|W].
  - destruct F as [F|[F|F]]; [auto|contradiction|]. exfalso. apply P. cbn in F |- *. lia.
  - subst. cbn [follow] in F. destruct F as [F|[F|F]]; [wsx|wsx|]. cbn in F. lia.
Qed.

Lemma word_follow a : forall b x y, Forall word_char a -> Forall word_char b -> follow x -> stops y ->
  ~ In 0xFEFF%N b -> a ++ x = b ++ y -> a = b /\ x = y.
Proof.
  induction a as [|a0 a IH]; intros b x y Fa Fb X Y N Q; destruct b as [|b0 b]; cbn in Q.
  - auto.
  - subst x. inversion Fb; subst. exfalso. apply N. left. eapply follow_word; eassumption.
  - subst y. inversion Fa; subst. exfalso. eapply nonident_word; [|eassumption]. eapply Y. reflexivity.
  - injection Q as -> Q. inversion Fa; inversion Fb; subst.
    destruct (IH b x y) as [-> ->]; auto. intros I. apply N. right. exact I.
Qed.

Lemma ident_word s : Forall ident_char s -> Forall word_char s.
Proof. apply Forall_impl. left. assumption. Qed.

Lemma start_word c : ident_start c -> word_char c.
Proof. intros H. apply start_ident in H. destruct H; [right|left]; assumption. Qed.

Lemma sign_word c : sign_char c -> word_char c.
Proof. intros H. left. apply sign_start, H. Qed.

Lemma bare_word s : bare_text s -> Forall word_char s.
Proof.
  destruct 1 as [c C|c d s C D F|d s D N F K].
  - constructor; [apply sign_word, C|constructor].
  - constructor; [apply sign_word, C|]. constructor; [apply start_word, D|apply ident_word, F].
  - constructor; [apply start_word, D|apply ident_word, F].
Qed.

Lemma eq_stops r : stops (0x3D%N :: r).
Proof. apply stops_cons. split; [|discriminate]. intros [_ [X _]]. apply X. cbn. lia. Qed.

Lemma quote_stops r : stops (0x22%N :: r).
Proof. apply stops_cons. split; [|discriminate]. intros [_ [X _]]. apply X. cbn. lia. Qed.

Lemma quote_nonident : nonident 0x22%N.
Proof. exact (quote_stops [] _ _ eq_refl). Qed.

Lemma hash_word k : Forall word_char (repeat 0x23%N k).
Proof.
  apply Forall_forall. intros c H. apply repeat_spec in H. subst c.
  left. apply id_char_spec. reflexivity.
Qed.

Definition number_chars : text := str "0123456789abcdefABCDEF_.+-xo".

Lemma digits_number n s : (n <= 16)%N -> Forall (digit_or_underscore n) s ->
  Forall (fun c => In c number_chars) s.
Proof.
  intros L. apply Forall_impl. intros c [->|[d [_ X]]]; [vm_compute; tauto|].
  destruct X as [X|X]; apply nth_error_In in X; clear -X; cbn in X |- *; tauto.
Qed.

Lemma integer_number n s : (n <= 16)%N -> integer_text n s -> Forall (fun c => In c number_chars) s.
Proof.
  intros L [d ds D F]. apply (digits_number n); [exact L|]. constructor; [right; exact D|exact F].
Qed.

Lemma sign_number s : opt_sign_text s -> Forall (fun c => In c number_chars) s.
Proof.
  destruct 1 as [|c [->| ->]]; constructor; try constructor; vm_compute; tauto.
Qed.

Lemma number_all s l : number_text s l -> Forall (fun c => In c number_chars) s.
Proof.
  destruct 1 as [sg x n r t t' A I T St|sg t t' A T St|sg t f e t' A T F X N St].
  - apply Forall_app. split; [apply sign_number, A|]. constructor; [vm_compute; tauto|].
    assert ((n <= 16)%N /\ In x number_chars) as [L J].
    { destruct I as [I|[I|[I|[]]]]; injection I as <- <- <-; (split; [lia|vm_compute; tauto]). }
    constructor; [exact J|]. apply (integer_number n); assumption.
  - apply Forall_app. split; [apply sign_number, A|]. apply (integer_number 10); [lia|exact T].
  - apply Forall_app. split; [apply sign_number, A|].
    apply Forall_app. split; [apply (integer_number 10); [lia|exact T]|].
    apply Forall_app. split.
    + destruct F as [|u U]; constructor; [vm_compute; tauto|].
      apply (integer_number 10); [lia|exact U].
    + destruct X as [|y sg' ds Y S D]; constructor.
      * destruct Y; subst; vm_compute; tauto.
      * apply Forall_app. split; [apply sign_number, S|]. apply (digits_number 10); [lia|exact D].
Qed.

Lemma number_char_word c : In c number_chars -> word_char c.
Proof.
  intros H. left. apply id_char_spec.
  assert (forallb is_id_char number_chars = true) as A by (vm_compute; reflexivity).
  rewrite forallb_forall in A. apply A, H.
Qed.

Lemma number_word s l : number_text s l -> Forall word_char s /\ ~ In 0xFEFF%N s.
Proof.
  intros N. apply number_all in N. split.
  - eapply Forall_impl; [|exact N]. exact number_char_word.
  - intros I. rewrite Forall_forall in N. apply N in I. vm_compute in I.
    repeat (destruct I as [I|I]; [discriminate|]). contradiction.
Qed.

Lemma keyword_word k : In k keywords -> Forall word_char k /\ ~ In 0xFEFF%N k.
Proof.
  intros I. assert (forallb (fun k => forallb is_id_char k && negb (existsb (N.eqb 0xFEFF) k)) keywords
    = true) as A by (vm_compute; reflexivity).
  rewrite forallb_forall in A. apply A in I. apply andb_prop in I. destruct I as [I J]. split.
  - apply ident_word. rewrite forallb_forall in I. apply Forall_forall. intros c C.
    apply id_char_spec. auto.
  - intros C. apply negb_true_iff in J. assert (existsb (N.eqb 0xFEFF) k = true); [|congruence].
    apply existsb_exists. exists 0xFEFF%N. split; [exact C|reflexivity].
Qed.

(** A literal is a string, a number or a keyword. *)
Lemma literal_cases s l : literal_text s l ->
  (exists t, string_text s t /\ l = LString t)
  \/ (Forall word_char s /\ ~ In 0xFEFF%N s /\ (In s keywords \/ number_text s l)).
Proof.
  destruct 1 as [s t H| | | |s l H]; [left; eauto|right|right|right|right].
  1-3: split; [|split]; [apply keyword_word|apply keyword_word|left]; cbn; tauto.
  destruct (number_word _ _ H). auto.
Qed.

(** A string is quoted, or the letter [r], hashes and a quote. *)
Lemma string_cases s t : string_text s t ->
  hd_error s = Some 0x22%N
  \/ exists k u, s = (0x72%N :: repeat 0x23%N k) ++ 0x22%N :: u.
Proof.
  destruct 1 as [s t R|s t Es].
  - right. destruct R as [n t _]. exists n, (t ++ raw_close n). reflexivity.
  - left. apply escaped_start in Es. exact Es.
Qed.

Lemma r_word k : Forall word_char (0x72%N :: repeat 0x23%N k).
Proof. constructor; [left; apply id_char_spec; reflexivity|apply hash_word]. Qed.

(** ** What begins with a word *)

(** The beginning of an item that begins with a word. *)
Lemma word_item s i b rest R : @plain_item_at unit unit_env (plain s) i -> follow R ->
  b <> [] -> Forall word_char b -> ~ In 0xFEFF%N b -> stops rest -> b ++ rest = s ++ R ->
  (exists l, s = b /\ R = rest /\ (In b keywords \/ number_text b l)
      /\ i = Argument (Value None (Spanned tt l)))
  \/ (exists k u, b = 0x72%N :: repeat 0x23%N k /\ rest = 0x22%N :: u)
  \/ (exists u k v, rest = 0x3D%N :: u /\ i = Property (Spanned tt k) v /\ key_text b k).
Proof.
  intros P F Ne Wb Nb St Q.
  assert (forall c, hd_error s = Some c -> word_char c) as Hd.
  { intros c H. destruct s as [|c' s]; [discriminate|]. injection H as <-.
    destruct b as [|b0 b]; [congruence|]. cbn in Q. injection Q as <- _.
    inversion Wb; assumption. }
  assert (forall sg t r, string_text sg t -> hd_error sg = hd_error s -> b ++ rest = sg ++ r ->
    exists k u, b = 0x72%N :: repeat 0x23%N k /\ rest = 0x22%N :: u) as K.
  { intros sg t r T H X. apply string_cases in T. destruct T as [T|[k [u ->]]].
    - exfalso. rewrite T in H. symmetry in H. apply Hd in H.
      eapply nonident_word; [|exact H]. exact quote_nonident.
    - rewrite <- app_assoc in X.
      apply word_split in X; auto using r_word; [|apply quote_stops].
      destruct X as [-> ->]. exists k, (u ++ r). split; reflexivity. }
  destruct (item_cases _ _ P) as [[l [L ->]]|[[st [ty [sv [l [-> [T [L ->]]]]]]]
    |[sk [k [sv [v [-> [Kt [V ->]]]]]]]]].
  - apply literal_cases in L. destruct L as [[t [T ->]]|[W [N C]]].
    + right. left. eapply K; [exact T|reflexivity|exact Q].
    + left. exists l. symmetry in Q. apply word_follow in Q; auto. destruct Q as [-> ->]. auto.
  - exfalso. apply type_start in T. destruct T as [u ->].
    specialize (Hd 0x28%N eq_refl). destruct Hd as [[_ [X _]]|X]; [|discriminate].
    apply X. cbn. lia.
  - right. rewrite <- app_assoc in Q. cbn [app] in Q.
    destruct Kt as [sk k T|sk B Nk].
    + left. eapply K; [exact T| |exact Q].
      apply string_cases in T. destruct T as [T|[n [u ->]]]; [|reflexivity].
      destruct sk; [discriminate|reflexivity].
    + right. apply word_split in Q; auto using bare_word, eq_stops. destruct Q as [-> ->].
      exists (chars sv ++ R), sk, v. repeat split; auto. apply Key_bare; assumption.
Qed.

Lemma word_item_char c : word_char c -> c <> 0xFEFF%N -> item_char c.
Proof.
  intros W F. split; [|split].
  - intros I. destruct W as [[_ [_ [_ W]]]|W]; [auto|subst; wsx].
  - intros I. destruct W as [[_ [_ [W _]]]|W]; [auto|subst; wsx].
  - intros I. destruct W as [[_ [W _]]|W]; [apply W; cbn in I |- *; lia|subst; cbn in I; lia].
Qed.

(** What is read from "n " and a word. *)
Lemma word_reads b rest D : reads (str "n " ++ b ++ rest) D ->
  b <> [] -> Forall word_char b -> ~ In 0xFEFF%N b -> stops rest ->
  ((exists l, In b keywords \/ number_text b l)
      /\ hd_error rest <> Some 0x3D%N)
  \/ (exists k u, b = 0x72%N :: repeat 0x23%N k /\ rest = 0x22%N :: u)
  \/ (exists u, rest = 0x3D%N :: u /\ exists k, key_text b k).
Proof.
  intros H Ne W N S. destruct b as [|c y]; [congruence|]. cbn [app] in H.
  assert (item_char c) as C.
  { apply word_item_char; [inversion W; assumption|]. intros ->. apply N. left. reflexivity. }
  destruct (n_item_reads c (y ++ rest) D H C)
    as [s [R [i [l [ps [ch [D' [X [P [F [M ->]]]]]]]]]]].
  destruct (word_item s i (c :: y) rest R P F Ne W N S X)
    as [[x [-> [-> [Y ->]]]]|[Y|[u [k [v [-> [-> K]]]]]]].
  - left. split; [eauto|]. intros Q. destruct rest as [|e rest]; [discriminate|].
    injection Q as ->. destruct F as [F|[F|F]]; [wsx|wsx|cbn in F; lia].
  - right. left. exact Y.
  - right. right. eauto.
Qed.

Lemma number_not_bare s l : number_text s l -> ~ bare_text s.
Proof.
  intros N B. eapply bare_not_number with (rest := []); [exact B|exact I| |exact N]. reflexivity.
Qed.

Lemma keyword_not_bare s : In s keywords -> ~ bare_text s.
Proof.
  intros K B. destruct B as [c C|c d s C D F|d s D N F K'].
  - eapply sign_not_keyword; eassumption.
  - eapply sign_not_keyword; eassumption.
  - contradiction.
Qed.

Lemma number_ne s l : number_text s l -> s <> [].
Proof. intros N. apply number_start in N. destruct N as [c [t [-> _]]]. discriminate. Qed.

Lemma keyword_ne s : In s keywords -> s <> [].
Proof. intros I ->. cbn in I. intuition discriminate. Qed.

Lemma word_not_string s t : Forall word_char s -> ~ string_text s t.
Proof.
  intros W T. assert (In 0x22%N s) as J.
  { apply string_cases in T. destruct T as [T|[k [u ->]]].
    - destruct s; [discriminate|]. injection T as ->. left. reflexivity.
    - apply in_or_app. right. left. reflexivity. }
  rewrite Forall_forall in W. apply W in J. eapply nonident_word; [|exact J].
  exact quote_nonident.
Qed.

(** ** Property names *)

(** A bare identifier names a property exactly if it does not begin with a
    keyword. *)
Theorem bare_key s : bare_text s -> ~ In 0xFEFF%N s ->
  (accepted (str "n " ++ s ++ str "=1") <-> forall k, In k keywords -> ~ prefix k s).
Proof.
  intros B F. split.
  - intros A. apply accepted_means in A. destruct A as [D [A _]].
    apply word_reads in A; auto using bare_word.
    3: apply (eq_stops (str "1")).
    2: { destruct B; discriminate. }
    destruct A as [[_ X]|[[k [u [_ X]]]|[u [_ [k K]]]]].
    + exfalso. apply X. reflexivity.
    + discriminate.
    + destruct K as [s k T|s B' Nk]; [|exact Nk].
      exfalso. eapply word_not_string; [|exact T]. apply bare_word, B.
  - intros Nk.
    destruct (items_read [(one_space, DProp s s (DValue None (str "1") (LInt Dec (str "1"))))])
      as [ps [[d [P _]] _]].
    { constructor; [|constructor]. split; [apply one_space_wf|]. split; [discriminate|].
      split; [apply Key_bare; assumption|]. split.
      - intros H. apply F. destruct s; [discriminate|]. injection H as ->. left. reflexivity.
      - split; [exact I|]. apply Lit_number.
        apply (Num_int [] (str "1") (str "1")); [constructor| |].
        + constructor; [|constructor]. apply (is_digit_spec 10); [lia|reflexivity].
        + apply Strip_char; [discriminate|constructor]. }
    exists d. unfold render_items in P. cbn [flat_map] in P. rewrite app_nil_r in P.
    exact P.
Qed.

(** ** Raw strings *)

Theorem raw_reads n t :
  (forall t1 r1, t ++ raw_close n = t1 ++ raw_close n ++ r1 -> List.length t <= List.length t1) ->
  reads (str "n r" ++ repeat 0x23%N n ++ str """" ++ t ++ raw_close n) (n_arg (LString t)).
Proof.
  intros H. apply (n_arg_reads (0x72%N :: repeat 0x23%N n ++ [0x22%N] ++ t ++ raw_close n)).
  apply Lit_string, ST_raw, Raw. intros t1 t2 -> Ne [c X].
  specialize (H t1 c). rewrite <- app_assoc, X in H. specialize (H eq_refl).
  rewrite app_length in H. destruct t2; [congruence|cbn in H; lia].
Qed.

Lemma raw_first n t r : forall x t1 r1,
  (forall t1 t2, t = t1 ++ t2 -> t2 <> [] -> ~ prefix (raw_close n) (t2 ++ raw_close n)) ->
  x = t ++ raw_close n ++ r -> x = t1 ++ raw_close n ++ r1 -> List.length t <= List.length t1.
Proof.
  intros x t1 r1 H X Y. destruct (Nat.le_gt_cases (List.length t) (List.length t1)) as [L|L]; [exact L|].
  exfalso. rewrite X in Y.
  assert (exists t2, t = t1 ++ t2 /\ t2 <> [] /\ t2 ++ raw_close n ++ r = raw_close n ++ r1)
    as [t2 [-> [Ne Z]]].
  { clear -Y L. revert t Y L. induction t1 as [|a t1 IH]; intros t Y L.
    - exists t. split; [reflexivity|]. split; [|exact Y]. intros ->. cbn in L. lia.
    - destruct t as [|b t]; [cbn in L; lia|]. cbn in Y. injection Y as -> Y. cbn in L.
      destruct (IH t Y) as [t2 [-> Z]]; [lia|]. exists t2. auto. }
  apply (H t1 t2 eq_refl Ne). rewrite app_assoc in Z.
  apply prefix_app_short with (c := r).
  - rewrite app_length. lia.
  - exists r1. exact Z.
Qed.

Lemma hash_split n m x y : repeat 0x23%N n ++ 0x22%N :: x = repeat 0x23%N m ++ 0x22%N :: y ->
  n = m /\ x = y.
Proof.
  intros H. apply (split_first (fun c => c = 0x23%N)) in H; try discriminate; try apply forall_repeat.
  destruct H as [H [_ ->]]. split; [|reflexivity].
  apply (f_equal (@List.length _)) in H. rewrite !repeat_length in H. exact H.
Qed.

(** What is read from the beginning of a raw string. *)
Theorem raw_only n x D : reads (str "n r" ++ repeat 0x23%N n ++ 0x22%N :: x) D ->
  exists t r, x = t ++ raw_close n ++ r
    /\ (forall t1 r1, x = t1 ++ raw_close n ++ r1 -> List.length t <= List.length t1)
    /\ (hd_error r = Some 0x3D%N
        \/ exists args ps ch D', D = Spanned tt (Node None (Spanned tt (str "n"))
             (Value None (Spanned tt (LString t)) :: args) ps ch) :: D').
Proof.
  intros H. change (str "n r" ++ repeat 0x23%N n ++ 0x22%N :: x)
    with (str "n " ++ 0x72%N :: repeat 0x23%N n ++ 0x22%N :: x) in H.
  apply n_item_reads in H.
  2: { apply word_item_char; [left; apply id_char_spec; reflexivity|discriminate]. }
  destruct H as [s [R [i [l [ps [ch [D' [X [P [F [M ->]]]]]]]]]]].
  assert (forall sg t r, string_text sg t -> 0x72%N :: repeat 0x23%N n ++ 0x22%N :: x = sg ++ r ->
    x = t ++ raw_close n ++ r
    /\ (forall t1 r1, x = t1 ++ raw_close n ++ r1 -> List.length t <= List.length t1)) as K.
  { intros sg t r T Q. destruct T as [sg t T|sg t T].
    - destruct T as [m t T]. cbn [app] in Q. injection Q as Q. rewrite <- !app_assoc in Q.
      cbn [app] in Q. apply hash_split in Q. destruct Q as [-> ->]. rewrite <- app_assoc.
      split; [reflexivity|]. intros t1 r1 Y. eapply raw_first; [exact T|reflexivity|exact Y].
    - destruct T. discriminate. }
  assert (forall k y, Forall word_char k -> stops y -> 0x72%N :: repeat 0x23%N n ++ 0x22%N :: x = k ++ y ->
    hd_error y = Some 0x22%N) as W.
  { intros k y Wk Sy Q. change (0x72%N :: repeat 0x23%N n ++ 0x22%N :: x)
      with ((0x72%N :: repeat 0x23%N n) ++ 0x22%N :: x) in Q.
    apply word_split in Q; auto using r_word, quote_stops. destruct Q as [_ <-]. reflexivity. }
  destruct (item_cases _ _ P) as [[lit [L ->]]|[[st [ty [sv [lit [-> [T [L ->]]]]]]]
    |[sk [k [sv [v [-> [Kt [V ->]]]]]]]]].
  - apply literal_cases in L. destruct L as [[t [T ->]]|[Wd [N C]]].
    + destruct (K _ _ _ T X) as [Y Z]. exists t, R. split; [exact Y|]. split; [exact Z|].
      right. cbn [arguments_of]. eauto.
    + exfalso. assert (stops R) as SR.
      { destruct R as [|e R]; [apply stops_nil|]. apply stops_cons.
        destruct (word_char_dec e) as [We|We]; [|exact We]. exfalso.
        pose proof (follow_word _ _ F We) as ->.
        assert (In 0xFEFF%N (0x72%N :: repeat 0x23%N n)) as J.
        { clear -X Wd We. change (0x72%N :: repeat 0x23%N n ++ 0x22%N :: x)
            with ((0x72%N :: repeat 0x23%N n) ++ 0x22%N :: x) in X.
          assert (Forall word_char (s ++ [0xFEFF%N])) as Wd'
            by (apply Forall_app; split; [exact Wd|constructor; [exact We|constructor]]).
          clear Wd We. revert X. generalize (r_word n).
          generalize (0x72%N :: repeat 0x23%N n). induction s as [|a s IH]; intros w Ww X.
          - destruct w as [|b w]; [discriminate|]. cbn in X. injection X as -> _. left. reflexivity.
          - destruct w as [|b w].
            + cbn in X. injection X as <- _. inversion Wd'; subst.
              exfalso. eapply nonident_word; [|eassumption]. exact quote_nonident.
            + cbn in X. injection X as -> X. right. apply IH; auto.
              * inversion Wd'; assumption.
              * inversion Ww; assumption. }
        destruct J as [J|J]; [discriminate|]. apply repeat_spec in J. discriminate. }
      pose proof (W _ _ Wd SR X) as Q. destruct R as [|e R]; [discriminate|]. injection Q as ->.
      destruct F as [F|[F|F]]; [wsx|wsx|cbn in F; lia].
  - exfalso. apply type_start in T. destruct T as [u ->]. discriminate.
  - rewrite <- app_assoc in X. cbn [app] in X. destruct Kt as [sk k T|sk B Nk].
    + destruct (K _ _ _ T X) as [Y Z]. eexists k, _. split; [exact Y|]. split; [exact Z|].
      left. reflexivity.
    + exfalso. apply W in X; auto using bare_word, eq_stops. discriminate.
Qed.

(** ** Numbers *)

Theorem number_reads s l : number_text s l -> reads (str "n " ++ s) (n_arg l).
Proof. intros N. apply n_arg_reads, Lit_number, N. Qed.

(** ** Where strings end *)

Theorem quoted_first s t r D : reads (str "n " ++ 0x22%N :: s ++ 0x22%N :: r) D ->
  string_body s t -> hd_error r <> Some 0x3D%N ->
  exists args ps ch D', D = Spanned tt (Node None (Spanned tt (str "n"))
    (Value None (Spanned tt (LString t)) :: args) ps ch) :: D'.
Proof.
  intros H B Nr. apply quoted_reads in H. destruct H as [s' [t' [r' [Q [B' K]]]]].
  destruct (string_body_unique s t B s' t' r r' B' Q) as [<- [<- <-]].
  destruct K as [K|K]; [contradiction|exact K].
Qed.

Theorem quoted_unclosed x : (forall s t r, string_body s t -> x <> s ++ 0x22%N :: r) ->
  rejected (str "n " ++ 0x22%N :: x).
Proof.
  intros H. apply not_accepted. intros A. apply accepted_means in A. destruct A as [D [A _]].
  apply quoted_reads in A. destruct A as [s [t [r [Q [B _]]]]]. exact (H s t r B Q).
Qed.

Theorem raw_unclosed n x : (forall t r, x <> t ++ raw_close n ++ r) ->
  rejected (str "n r" ++ repeat 0x23%N n ++ 0x22%N :: x).
Proof.
  intros H. apply not_accepted. intros A. apply accepted_means in A. destruct A as [D [A _]].
  apply raw_only in A. destruct A as [t [r [Q _]]]. exact (H t r Q).
Qed.

Theorem unicode_invalid h : ~ In 0x7D%N h ->
  ~ ((1 <= List.length h <= 6)%nat /\ exists v, digits_value 16 h v /\ scalar_value v) ->
  rejected (str "n ""\u{" ++ h ++ str "}""").
Proof.
  intros B H. apply not_accepted. intros A. apply accepted_means in A. destruct A as [D [A _]].
  apply unicode_only in A; [|exact B]. destruct A as [v [L [V [S _]]]]. apply H. eauto.
Qed.

Theorem unicode_valid h : ~ In 0x7D%N h ->
  (accepted (str "n ""\u{" ++ h ++ str "}""")
   <-> (1 <= List.length h <= 6)%nat /\ exists v, digits_value 16 h v /\ scalar_value v).
Proof.
  intros B. split.
  - intros A. apply accepted_means in A. destruct A as [D [A _]].
    apply unicode_only in A; [|exact B]. destruct A as [v [L [V [S _]]]]. eauto.
  - intros [L [v [V S]]]. destruct (unicode_reads h v L V S) as [d [P _]]. exists d. exact P.
Qed.

(** Not every bare identifier names a property. *)
Theorem bare_key_refuted : exists s, bare_text s /\ accepted (s ++ str " 1")
  /\ rejected (str "n " ++ s ++ str "=1").
Proof.
  exists (str "nullable"). split; [|split].
  - apply Bare_plain.
    + apply id_sans_dig_spec. reflexivity.
    + intros [X|X]; discriminate.
    + apply Forall_forall. intros c C. apply id_char_spec. revert c C. apply forallb_forall.
      vm_compute. reflexivity.
    + cbn. intros [X|[X|[X|[]]]]; discriminate.
  - eexists. vm_compute. reflexivity.
  - eexists. split; [|vm_compute; reflexivity]. discriminate.
Qed.

