(** Number literals. *)

From Coq Require Import NArith PeanoNat List Bool String Lia.
From Coq Require Import ZifyBool.
From Verif Require Import Chars Ast Errors Chumsky Spans Grammar DocSafe Kdl KdlText KdlChars
  Layout Number Good GrammarNear LexSpace LexLit LexIdent PropMap Items Nodes NodesComplete Erase
  Meaning LayoutMeans PrintMeans Observe LayoutProps Template LexProps ItemProps.
Import ListNotations.
Local Open Scope list_scope.

Lemma stripped_without s : stripped s (without_underscores s).
Proof. apply stripped_spec. reflexivity. Qed.

Lemma digits_integer r t : digits_of r t -> integer_text r t.
Proof. intros [d [ds [-> [D F]]]]. constructor; assumption. Qed.

Theorem radix_reads sg x n r ds : opt_sign_text sg -> In (x, n, r) radix_prefixes ->
  digits_of n ds ->
  reads (str "n " ++ sg ++ 0x30%N :: x :: ds) (n_arg (LInt r (sg ++ without_underscores ds))).
Proof.
  intros S I D. apply number_reads. eapply Num_radix; [exact S|exact I| |apply stripped_without].
  apply digits_integer, D.
Qed.

Theorem int_reads sg ds : opt_sign_text sg -> digits_of 10 ds ->
  reads (str "n " ++ sg ++ ds) (n_arg (LInt Dec (sg ++ without_underscores ds))).
Proof.
  intros S D. apply number_reads. apply Num_int; [exact S| |apply stripped_without].
  apply digits_integer, D.
Qed.

Theorem decimal_reads sg ds f e : opt_sign_text sg -> digits_of 10 ds ->
  f = [] \/ (exists fd, f = 0x2E%N :: fd /\ digits_of 10 fd) ->
  e = [] \/ (exists y s ed, e = y :: s ++ ed /\ (y = 0x65%N \/ y = 0x45%N) /\ opt_sign_text s
     /\ digits_of 10 ed) ->
  f ++ e <> [] ->
  reads (str "n " ++ sg ++ ds ++ f ++ e)
    (n_arg (LDecimal (sg ++ without_underscores (ds ++ f ++ e)))).
Proof.
  intros S D F Ex Ne. apply number_reads. apply Num_decimal; auto using stripped_without, digits_integer.
  - destruct F as [->|[fd [-> F]]]; constructor. apply digits_integer, F.
  - destruct Ex as [->|[y [s [ed [-> [Y [Sg Ed]]]]]]]; [constructor|]. constructor; auto.
    apply digits_integer in Ed. destruct Ed as [d0 d1 D0 D1]. constructor; [right|]; assumption.
Qed.

(** What begins like a number and is read is a number as a whole. *)
Theorem number_only b rest D sg d u : reads (str "n " ++ b ++ rest) D ->
  b = sg ++ d :: u -> opt_sign_text sg -> digit_char 10 d ->
  Forall word_char b -> ~ In 0xFEFF%N b -> stops rest ->
  exists l args ps ch D', number_text b l
    /\ D = Spanned tt (Node None (Spanned tt (str "n")) (Value None (Spanned tt l) :: args) ps ch)
         :: D'.
Proof.
  intros H Eb Sg Dd W N St.
  assert (exists c y, b = c :: y /\ (sign_char c \/ digit_char 10 c)) as [c [y [-> Hc]]].
  { destruct Sg as [|c Sg]; cbn in Eb; eauto. }
  assert (item_char c) as C.
  { apply word_item_char; [inversion W; assumption|]. intros ->. apply N. left. reflexivity. }
  cbn [app] in H.
  destruct (n_item_reads c (y ++ rest) D H C)
    as [s [R [i [l [ps [ch [D' [X [P [F [M ->]]]]]]]]]]].
  assert (c :: y <> []) as Ne by discriminate.
  assert (forall t, bare_text t -> t = c :: y -> False) as Nb.
  { intros t B Q. subst t. rewrite Eb in B.
    destruct Sg as [|e Sg]; cbn [app] in B; inversion B as [z Z Q|z z' s' Z Z' F' Q|z s' Z Z' F' K' Q];
      subst.
    - apply dec_digit_spec in Dd. destruct Z; lia.
    - apply dec_digit_spec in Dd. destruct Z; lia.
    - destruct Z as [_ Z]. auto.
    - destruct Z' as [_ Z']. auto.
    - auto. }
  destruct (word_item s i (c :: y) rest R P F Ne W N St X)
    as [[x [-> [-> [Y ->]]]]|[[k [v [Y _]]]|[v [k [w [-> [-> K]]]]]]].
  - destruct Y as [Y|Y].
    + exfalso. destruct Hc as [Hc|Hc]; [eapply sign_not_keyword; eassumption|].
      apply dec_digit_spec in Hc.
      destruct Y as [Y|[Y|[Y|[]]]]; injection Y as <- _; cbn in Hc; lia.
    + exists x, (arguments_of l), ps, ch, D'. auto.
  - exfalso. injection Y as -> _. destruct Hc as [[Hc|Hc]|Hc]; try discriminate.
    apply dec_digit_spec in Hc. lia.
  - exfalso. inversion K as [s' k' T Q1 Q2|s' B Nk Q1 Q2]; subst.
    + eapply word_not_string; eassumption.
    + eapply Nb; [exact B|reflexivity].
Qed.

(** Decimal exactly if there is a fraction or an exponent. *)
Theorem decimal_iff s l : number_text s l ->
  ((exists t, l = LDecimal t) <->
   In 0x2E%N s \/ ((In 0x65%N s \/ In 0x45%N s)
                   /\ forall sg x t, opt_sign_text sg -> s = sg ++ 0x30%N :: x :: t -> x <> 0x78%N)).
Proof.
  intros N. 
  assert (forall n t c, (n <= 10)%N -> integer_text n t -> In c t -> c = 0x5F%N \/ (0x30 <= c /\ c <= 0x39)%N)
    as K.
  { intros n t c L [d ds D F] I.
    assert (digit_or_underscore n c) as Dc.
    { destruct I as [<-|I]; [right; exact D|]. rewrite Forall_forall in F. auto. }
    destruct Dc as [Dc|[v [Lv Dc]]]; [auto|]. right. apply dec_digit_spec. exists v.
    split; [lia|exact Dc]. }
  destruct N as [sg x n r t t' A I T St|sg t t' A T St|sg t f e t' A T F X Ne St].
  - split; [intros [y Y]; discriminate|]. intros H. exfalso.
    assert (forall c, In c sg -> c = 0x2B \/ c = 0x2D)%N as Ks.
    { intros c C. destruct A as [|z Z]; [destruct C|]. destruct C as [<-|[]]. exact Z. }
    assert (n <= 8 \/ n = 16 /\ x = 0x78)%N as [Ln|[-> ->]].
    { destruct I as [I|[I|[I|[]]]]; injection I as <- <- <-; lia. }
    + assert (x = 0x62 \/ x = 0x6F)%N as Hx.
      { destruct I as [I|[I|[I|[]]]]; injection I as <- <- <-; lia. }
      assert (forall c, In c (sg ++ 0x30%N :: x :: t) ->
        c = 0x5F \/ (0x30 <= c /\ c <= 0x39) \/ c = 0x62 \/ c = 0x6F \/ c = 0x2B \/ c = 0x2D)%N as Ka.
      { intros c C. apply in_app_or in C. destruct C as [C|[C|[C|C]]].
        - apply Ks in C. lia.
        - lia.
        - lia.
        - apply (K n t c) in C; [lia|lia|exact T]. }
      destruct H as [H|[[H|H] _]]; apply Ka in H; lia.
    + destruct H as [H|[_ H]].
      * assert (forall c, digit_or_underscore 16 c -> c <> 0x2E%N) as Kh.
        { intros c [->|Dc] Q; [discriminate|]. subst c.
          apply (is_digit_spec 16) in Dc; [discriminate|lia]. }
        apply in_app_or in H. destruct H as [H|[H|[H|H]]]; try discriminate.
        -- apply Ks in H. lia.
        -- destruct T as [d ds D F]. destruct H as [H|H].
           ++ apply (Kh d); [right; exact D|auto].
           ++ rewrite Forall_forall in F. apply (Kh 0x2E%N); auto.
      * apply (H sg 0x78%N t A); reflexivity.
  - split; [intros [y Y]; discriminate|]. intros H. exfalso.
    assert (forall c, In c (sg ++ t) ->
        c = 0x5F \/ (0x30 <= c /\ c <= 0x39) \/ c = 0x2B \/ c = 0x2D)%N as Ka.
    { intros c C. apply in_app_or in C. destruct C as [C|C].
      - destruct A as [|z Z]; [destruct C|]. destruct C as [<-|[]]. destruct Z; lia.
      - apply (K 10%N t c) in C; [lia|lia|exact T]. }
    destruct H as [H|[[H|H] _]]; apply Ka in H; lia.
  - split; [intros _|eauto].
    assert (forall c, In c t -> c = 0x5F \/ (0x30 <= c /\ c <= 0x39))%N as Kt.
    { intros c C. apply (K 10%N t c); [lia|exact T|exact C]. }
    destruct F as [|fd Fd].
    + right. cbn [app] in *. destruct X as [|y s' ed Y Sg' Ed]; [contradiction|]. split.
      * destruct Y; subst y; [left|right]; apply in_or_app; right; apply in_or_app; right; left;
          reflexivity.
      * intros sg' x u Sg Q ->.
        assert (forall v, In v (t ++ y :: s' ++ ed) -> v <> 0x78%N) as Kv.
        { intros v V ->. apply in_app_or in V. destruct V as [V|[V|V]].
          - apply Kt in V. lia.
          - destruct Y; lia.
          - apply in_app_or in V. destruct V as [V|V].
            + destruct Sg' as [|z Z]; [destruct V|]. destruct V as [V|[]]. destruct Z; lia.
            + rewrite Forall_forall in Ed. apply Ed in V. destruct V as [V|V]; [discriminate|].
              apply dec_digit_spec in V. lia. }
        assert (In 0x78%N (sg ++ t ++ y :: s' ++ ed)) as J.
        { rewrite Q. apply in_or_app. right. right. left. reflexivity. }
        apply in_app_or in J. destruct J as [J|J]; [|eapply Kv; [exact J|reflexivity]].
        destruct A as [|z Z]; [destruct J|]. destruct J as [J|[]]. destruct Z; lia.
    + left. apply in_or_app. right. apply in_or_app. right. left. reflexivity.
Qed.

(** ** Decimals *)

Lemma no_underscore_digits t : ~ In 0x5F%N t -> Forall (digit_or_underscore 10) t ->
  Forall (digit_char 10) t.
Proof.
  intros N F. rewrite Forall_forall in *. intros c C. destruct (F c C) as [->|D]; [contradiction|exact D].
Qed.

Lemma plain_integer t : ~ In 0x5F%N t -> integer_text 10 t -> plain_digits t.
Proof.
  intros N I. split; [destruct I; discriminate|]. apply no_underscore_digits; [exact N|].
  apply integer_digits, I.
Qed.

Lemma decimal_float t : writable_literal (LDecimal t) -> float_text t \/ dangling_exponent t.
Proof.
  intros [sg [s [f [e [-> [Sg [I [F [X [Ne U]]]]]]]]]].
  assert (forall a b, ~ In 0x5F%N (a ++ b) -> ~ In 0x5F%N a /\ ~ In 0x5F%N b) as K.
  { intros a b H. split; intros J; apply H; apply in_or_app; auto. }
  apply K in U. destruct U as [_ U]. apply K in U. destruct U as [U1 U].
  apply K in U. destruct U as [U2 U3].
  assert (f = [] \/ (exists ds, f = 0x2E%N :: ds /\ plain_digits ds)) as F'.
  { destruct F as [|d D]; [auto|]. right. exists d. split; [reflexivity|].
    apply plain_integer; [|exact D]. intros J. apply U2. right. exact J. }
  destruct X as [|x sg' ds X Sg' D].
  - left. constructor; auto. apply plain_integer; assumption.
  - destruct ds as [|d ds].
    + right. exists (sg ++ s ++ f), x, sg'. rewrite app_nil_r, <- !app_assoc. auto.
    + left. constructor; auto; [apply plain_integer; assumption|]. right.
      exists x, sg', (d :: ds). split; [reflexivity|]. split; [exact X|]. split; [exact Sg'|].
      split; [discriminate|]. apply no_underscore_digits; [|exact D].
      intros J. apply U3. right. apply in_or_app. right. exact J.
Qed.

Lemma occurs_writable {Sp} l (ns : list (snode Sp)) : occurs l ns -> writable_list ns ->
  writable_literal l.
Proof.
  assert (forall (ns : list (snode Sp)) n, writable_list ns -> In n ns -> writable (s_value n)) as K.
  { intros ms n W. induction ms as [|m ms IH]; [intros []|]. inversion W; subst.
    intros [<-|I]; auto. }
  induction 1 as [n ns v I J Q|n ns k v I J Q|n ns c I J O IH]; intros W;
    specialize (K ns n W I); inversion K as [ty nm args props ch T A Inc P C Q']; rewrite <- Q' in J;
    cbn in J.
  - rewrite Forall_forall in A. apply A in J. destruct J as [_ J]. rewrite Q in J. exact J.
  - rewrite Forall_forall in P. apply P in J. destruct J as [_ J]. cbn [snd] in J. rewrite Q in J.
    exact J.
  - apply IH. apply C. exact J.
Qed.

Theorem decimals_float t d x : parse_ast_span t = Parsed d -> occurs (LDecimal x) d ->
  float_text x \/ dangling_exponent x.
Proof.
  intros P O. apply decimal_float. eapply occurs_writable; [exact O|]. eapply parsed_writable, P.
Qed.

Lemma float_not_dangling t : float_text t -> dangling_exponent t -> False.
Proof.
  intros F [m [x [s [Q [X S]]]]].
  assert (exists u z, t = u ++ [z] /\ digit_char 10 z) as [u [z [-> Z]]].
  { assert (forall t, plain_digits t -> exists u z, t = u ++ [z] /\ digit_char 10 z) as L.
    { intros v [Ne D]. destruct (exists_last Ne) as [u [z ->]]. exists u, z. split; [reflexivity|].
      apply Forall_app in D. destruct D as [_ D]. inversion D; assumption. }
    destruct F as [sg k f e A I Ff E].
    destruct E as [->|[y [s' [ds [-> [Y [S' D]]]]]]].
    - destruct Ff as [->|[ds [-> D]]].
      + rewrite !app_nil_r. apply L in I. destruct I as [u [z [-> Z]]].
        exists (sg ++ u), z. rewrite app_assoc. auto.
      + rewrite app_nil_r. apply L in D. destruct D as [u [z [-> Z]]].
        exists (sg ++ k ++ 0x2E%N :: u), z. rewrite <- !app_assoc. auto.
    - apply L in D. destruct D as [u [z [-> Z]]].
      exists (sg ++ k ++ f ++ y :: s' ++ u), z. rewrite <- !app_assoc. cbn [app].
      rewrite <- !app_assoc. auto. }
  apply dec_digit_spec in Z. destruct S as [|c C].
  - change (m ++ [x]) with (m ++ [x]) in Q. apply app_inj_tail in Q. destruct Q as [_ ->].
    destruct X; lia.
  - change (m ++ [x; c]) with (m ++ [x] ++ [c]) in Q. rewrite app_assoc in Q.
    apply app_inj_tail in Q. destruct Q as [_ ->]. destruct C; lia.
Qed.

Theorem dangling_refuted : exists x, reads (str "n 1e") (n_arg (LDecimal x)) /\ ~ float_text x.
Proof.
  exists (str "1e"). split.
  - eexists. split; vm_compute; reflexivity.
  - intros F. apply (float_not_dangling _ F). exists (str "1"), 0x65%N, [].
    split; [reflexivity|]. split; [left; reflexivity|constructor].
Qed.
