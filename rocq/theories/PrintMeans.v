(** The canonical text of a document reads back. *)

From Coq Require Import NArith PeanoNat List Bool String Lia.
From Coq Require Import ZifyBool.
From Verif Require Import Chars Ast Errors Chumsky Spans Grammar Kdl KdlText KdlChars Layout Good
  LexSpace LexLit LexIdent PropMap NodesComplete Erase Meaning LayoutMeans.
Import ListNotations.
Local Open Scope list_scope.

(** ** Strings, literals, types *)

Lemma print_chars_body t : string_body (print_chars t) t.
Proof.
  induction t as [|c t IH]; cbn [print_chars]; [constructor|].
  destruct ((c =? 0x22) || (c =? 0x5C))%N eqn:C.
  - apply (SB_escape [c] c); [|exact IH]. constructor.
    assert (c = 0x22 \/ c = 0x5C)%N as [->| ->] by lia; cbn; tauto.
  - constructor; [lia|lia|exact IH].
Qed.

Lemma print_string_text t : escaped_text (print_string t) t.
Proof. constructor. apply print_chars_body. Qed.

Lemma radix_digit r c : digit_char (radix_value r) c -> c <> 0x5F%N /\ ~ sign_char c.
Proof.
  intros D. apply (is_digit_spec (radix_value r)) in D; [|destruct r; cbn; lia].
  unfold sign_char. split; [|intros [->| ->]]; try intros ->; destruct r; discriminate.
Qed.

Lemma stripped_digits r ds : Forall (digit_char (radix_value r)) ds -> stripped ds ds.
Proof.
  induction 1 as [|d ds D _ IH]; constructor; auto. apply (radix_digit r), D.
Qed.

Lemma digits_integer r ds : ds <> [] -> Forall (digit_char (radix_value r)) ds ->
  integer_text (radix_value r) ds.
Proof.
  intros N F. destruct F as [|d ds D F]; [congruence|]. constructor; [exact D|].
  eapply Forall_impl; [|exact F]. intros c C. right. exact C.
Qed.

Lemma print_int_eq r sg ds : opt_sign_text sg -> ds <> [] ->
  Forall (digit_char (radix_value r)) ds ->
  print_int r (sg ++ ds) = sg ++ radix_mark r ++ ds.
Proof.
  intros S N F. destruct S as [|c C].
  - destruct F as [|d ds D F]; [congruence|]. cbn [app print_int].
    apply radix_digit in D. destruct D as [_ D]. unfold sign_char in D.
    replace ((d =? 0x2B) || (d =? 0x2D))%N with false by lia. reflexivity.
  - cbn [app print_int]. unfold sign_char in C.
    replace ((c =? 0x2B) || (c =? 0x2D))%N with true by lia. reflexivity.
Qed.

Lemma stripped_same t : ~ In 0x5F%N t -> stripped t t.
Proof.
  induction t as [|c t IH]; cbn [In]; intros H; constructor; auto.
Qed.

Lemma print_literal_text l : writable_literal l -> literal_text (print_literal l) l.
Proof.
  destruct l as [|[|]|r t|t|t]; cbn [writable_literal print_literal]; intros W.
  - apply Lit_null.
  - apply Lit_true.
  - apply Lit_false.
  - destruct W as [sg [ds [-> [S [N F]]]]]. rewrite print_int_eq by assumption.
    apply Lit_number. pose proof (digits_integer r ds N F) as I.
    pose proof (stripped_digits r ds F) as X.
    destruct r; cbn [radix_mark radix_value] in *.
    + apply (Num_radix sg 0x62%N 2%N Bin ds ds); auto. cbn; tauto.
    + apply (Num_radix sg 0x78%N 16%N Hex ds ds); auto. cbn; tauto.
    + apply (Num_radix sg 0x6F%N 8%N Oct ds ds); auto. cbn; tauto.
    + apply (Num_int sg ds ds); auto.
  - destruct W as [sg [s [f [e [-> [S [I [Fr [Ex [N U]]]]]]]]]].
    apply Lit_number. apply (Num_decimal sg s f e (s ++ f ++ e)); auto.
    apply stripped_same. intros X. apply U. apply in_or_app. right. exact X.
  - apply Lit_string, ST_escaped, print_string_text.
Qed.

Lemma writable_names ty : writable_type ty -> names_type (type_text_of ty) ty.
Proof.
  destruct ty as [b|t]; cbn [writable_type type_text_of]; intros W.
  - constructor. destruct W. destruct b; cbn; tauto.
  - constructor. exact W.
Qed.

Lemma print_type_text ty : writable_type ty ->
  type_text (0x28%N :: print_string (type_text_of ty) ++ [0x29%N]) ty.
Proof.
  intros W. apply (Type_name _ (type_text_of ty)).
  - apply ID_escaped, print_string_text.
  - apply writable_names, W.
Qed.

(** ** The canonical layout *)

Section Canon.
Context {Sp : Type}.

Definition canon_type (o : option (spanned typename Sp)) : option (text * typename) :=
  option_map (fun ty => (0x28%N :: print_string (type_text_of (s_value ty)) ++ [0x29%N],
                         s_value ty)) o.

Definition canon_value (v : value Sp) : dvalue :=
  DValue (canon_type (v_type_name v)) (print_literal (s_value (v_literal v)))
    (s_value (v_literal v)).

Definition one_space : gap := [GWs (WChar 0x20%N)].

Definition canon_items (args : list (value Sp)) (props : list (spanned text Sp * value Sp))
  : list (gap * ditem) :=
  map (fun v => (one_space, DArg (canon_value v))) args
  ++ map (fun kv => (one_space, DProp (print_string (s_value (fst kv))) (s_value (fst kv))
                                  (canon_value (snd kv)))) props.

Fixpoint canon_node (n : node Sp) : dnode :=
  match n with
  | Node ty nm args props ch =>
      DNode (canon_type ty) (print_string (s_value nm)) (s_value nm) (canon_items args props)
        match ch with
        | None => DNone
        | Some l =>
            DSome one_space [LNewline [0x0A%N]]
              ((fix go (l : list (snode Sp)) : dlist :=
                  match l with
                  | [] => DNil
                  | n :: l => DCons None (canon_node (s_value n)) [] (go l)
                  end) (s_value l))
        end
        [] (TNewline [0x0A%N])
  end.

Fixpoint canon_list (l : list (snode Sp)) : dlist :=
  match l with
  | [] => DNil
  | n :: l => DCons None (canon_node (s_value n)) [] (canon_list l)
  end.

Lemma canon_node_eq ty nm args props ch :
  canon_node (Node ty nm args props ch) =
  DNode (canon_type ty) (print_string (s_value nm)) (s_value nm) (canon_items args props)
    match ch with
    | None => DNone
    | Some l => DSome one_space [LNewline [0x0A%N]] (canon_list (s_value l))
    end [] (TNewline [0x0A%N]).
Proof.
  destruct ch; reflexivity.
Qed.

Lemma canon_type_render o : render_type (canon_type o) = print_type o.
Proof. destruct o; reflexivity. Qed.

Lemma canon_type_wf o : writable_opt_type o -> wf_type (canon_type o).
Proof. destruct o; cbn; [apply print_type_text|auto]. Qed.

Lemma canon_type_plain o : plain_type (canon_type o)
  = option_map (spanned_map_span (fun _ : Sp => tt)) o.
Proof. destruct o; reflexivity. Qed.

Lemma canon_value_render v : render_dvalue (canon_value v) = print_value v.
Proof. unfold render_dvalue, print_value. cbn [dv_type dv_text canon_value].
  rewrite canon_type_render. reflexivity. Qed.

Lemma canon_value_wf v : writable_value v -> wf_dvalue (canon_value v).
Proof.
  intros [T L]. split; [apply canon_type_wf, T|]. apply print_literal_text, L.
Qed.

Lemma canon_value_plain v : plain_value (canon_value v) = map_value_span (fun _ => tt) v.
Proof.
  unfold plain_value, map_value_span. cbn [dv_type canon_value dv_literal].
  rewrite canon_type_plain. reflexivity.
Qed.

Lemma canon_items_render args props :
  render_items (canon_items args props) = print_args args ++ print_props props.
Proof.
  unfold render_items, canon_items. rewrite flat_map_app. f_equal.
  - unfold print_args. induction args as [|v args IH]; [reflexivity|]. cbn [map flat_map].
    rewrite IH. cbn [fst snd render_item]. rewrite canon_value_render. reflexivity.
  - unfold print_props. induction props as [|v props IH]; [reflexivity|]. cbn [map flat_map].
    rewrite IH. cbn [fst snd render_item]. rewrite canon_value_render. reflexivity.
Qed.

Lemma one_space_wf : wf_gap one_space.
Proof.
  split; [|discriminate]. constructor; [|constructor]. right. left. reflexivity.
Qed.

Lemma canon_items_wf args props : Forall writable_value args ->
  Forall (fun kv => writable_value (snd kv)) props -> wf_items (canon_items args props).
Proof.
  intros A P. unfold wf_items, canon_items. apply Forall_app. split; apply Forall_map.
  - eapply Forall_impl; [|exact A]. intros v V. cbn [fst snd].
    split; [apply one_space_wf|]. split; [discriminate|]. apply canon_value_wf, V.
  - eapply Forall_impl; [|exact P]. intros v V. cbn [fst snd].
    split; [apply one_space_wf|]. split; [discriminate|].
    split; [apply Key_string, ST_escaped, print_string_text|]. split; [discriminate|].
    apply canon_value_wf, V.
Qed.

Lemma canon_items_args args props :
  item_args (canon_items args props) = map (map_value_span (fun _ => tt)) args.
Proof.
  unfold item_args, canon_items. rewrite flat_map_app.
  rewrite <- (app_nil_r (map (map_value_span (fun _ => tt)) args)). f_equal.
  - induction args as [|v args IH]; [reflexivity|]. cbn [map flat_map snd].
    rewrite IH, canon_value_plain. reflexivity.
  - induction props as [|v props IH]; [reflexivity|]. exact IH.
Qed.

Lemma canon_items_props args props :
  item_props (canon_items args props)
  = map (fun kv => (spanned_map_span (fun _ => tt) (fst kv),
                    map_value_span (fun _ => tt) (snd kv))) props.
Proof.
  unfold item_props, canon_items. rewrite flat_map_app.
  match goal with |- _ = ?x => change x with ([] ++ x) end. f_equal.
  - induction args as [|v args IH]; [reflexivity|]. exact IH.
  - induction props as [|v props IH]; [reflexivity|]. cbn [map flat_map snd].
    rewrite IH, canon_value_plain. reflexivity.
Qed.

End Canon.

(** ** Sorted properties *)

Lemma increasing_self {Sp} (l : list (spanned text Sp * value Sp)) : increasing l ->
  property_map l l.
Proof.
  intros H. split; [exact H|].
  assert (forall a b x y, l = a ++ x :: b -> (In y a \/ In y b) -> key_of y <> key_of x) as D.
  { induction H as [|z l Hl IH Z]; intros a b x y Q Hy; [destruct a; discriminate|].
    destruct a as [|a0 a]; cbn in Q; injection Q as -> Q.
    - destruct Hy as [[]|Hy]. subst l. intros X. specialize (Z y Hy).
      rewrite X, text_compare_refl in Z. discriminate.
    - subst l. destruct Hy as [[->|Hy]|Hy].
      + intros X. specialize (Z x (in_elt x a b)).
        rewrite X, text_compare_refl in Z. discriminate.
      + apply (IH a b x y eq_refl). auto.
      + apply (IH a b x y eq_refl). auto. }
  intros [k v]. split.
  - intros I. apply in_split in I. destruct I as [a [b Q]].
    exists a, v, b, a, k, b. split; [exact Q|].
    split; [intros x X; apply (D a b (k, v) x Q); auto|]. split; [exact Q|].
    split; [reflexivity|]. intros x X; apply (D a b (k, v) x Q); auto.
  - intros [b1 [v1 [a1 [b2 [k2 [a2 [Q1 [N1 [Q2 [K2 N2]]]]]]]]]]. cbn [fst snd] in *.
    assert (In (k2, v) l) as I by (rewrite Q2; apply in_or_app; right; left; reflexivity).
    rewrite Q1 in I. apply in_app_or in I. destruct I as [I|[I|I]].
    + destruct (N1 _ I). exact K2.
    + injection I as -> ->. rewrite Q1. apply in_or_app. right. left. reflexivity.
    + exfalso. apply (D b1 a1 (k, v1) (k2, v) Q1); [auto|exact K2].
Qed.

Lemma increasing_map {Sp U} (f : Sp -> U) (l : list (spanned text Sp * value Sp)) :
  increasing l -> increasing (map (fun kv => (spanned_map_span f (fst kv),
                                              map_value_span f (snd kv))) l).
Proof.
  induction 1 as [|x l H IH X]; cbn [map]; constructor; [exact IH|].
  intros y Y. apply in_map_iff in Y. destruct Y as [z [<- Z]]. apply (X z Z).
Qed.

(** ** Nodes *)

Lemma render_node_eq ty ns nm items ch g t : render_node (DNode ty ns nm items ch g t) =
  render_type ty ++ ns ++ render_items items ++ render_children ch ++ render_gap g
  ++ render_term t.
Proof. reflexivity. Qed.

Scheme writable_mut := Minimality for writable Sort Prop
  with writable_list_mut := Minimality for writable_list Sort Prop.
Combined Scheme writable_both from writable_mut, writable_list_mut.

Lemma writable_canon {Sp} :
  (forall n : node Sp, writable n ->
     wf_node false (canon_node n) /\ render_node (canon_node n) = print_node n
     /\ node_content (canon_node n) (map_node_span (fun _ => tt) n))
  /\ (forall l : list (snode Sp), writable_list l ->
     wf_list false (canon_list l) /\ render_list (canon_list l) = print_document l
     /\ list_content (canon_list l) (without_spans l)).
Proof.
  apply writable_both.
  - intros ty nm args props ch T A I P _ IH. rewrite canon_node_eq.
    assert (wf_children match ch with None => DNone
      | Some l => DSome one_space [LNewline [0x0A%N]] (canon_list (s_value l)) end) as Wc.
    { destruct ch as [l|]; constructor.
      - apply one_space_wf.
      - constructor; [|constructor]. right. exists 0x0A%N. split; [cbn; tauto|reflexivity].
      - apply (IH l eq_refl). }
    assert (render_children match ch with None => DNone
        | Some l => DSome one_space [LNewline [0x0A%N]] (canon_list (s_value l)) end
      = match ch with
        | None => []
        | Some l => 0x20%N :: 0x7B%N :: 0x0A%N
                    :: flat_map (fun n => print_node (s_value n)) (s_value l) ++ [0x7D%N]
        end) as Rc.
    { destruct ch as [l|]; [|reflexivity]. cbn [render_children].
      destruct (IH l eq_refl) as [_ [-> _]]. reflexivity. }
    split; [|split].
    + constructor.
      * apply canon_type_wf, T.
      * apply WN_escaped, print_string_text.
      * apply canon_items_wf; assumption.
      * exact Wc.
      * split; [constructor|discriminate].
      * right. exists 0x0A%N. split; [cbn; tauto|reflexivity].
      * discriminate.
    + rewrite render_node_eq. cbn [print_node]. rewrite canon_type_render, canon_items_render.
      match type of Rc with _ = ?r => match goal with |- context [render_children ?x] =>
        replace (render_children x) with r by (symmetry; exact Rc) end end.
      rewrite <- app_assoc. reflexivity.
    + cbn [map_node_span]. rewrite <- canon_type_plain.
      rewrite <- (canon_items_args args props).
      apply NC.
      * rewrite canon_items_props. apply increasing_self, increasing_map, I.
      * destruct ch as [[sp l]|]; [|constructor]. destruct (IH _ eq_refl) as [_ [_ C]].
        constructor. exact C.
  - split; [constructor|]. split; [reflexivity|constructor].
  - intros n l _ [W [R C]] _ [Wl [Rl Cl]]. cbn [canon_list].
    split; [|split].
    + constructor; [discriminate|exact W|constructor|exact Wl].
    + cbn [render_list]. rewrite R, Rl. reflexivity.
    + apply LCn_cons; assumption.
Qed.

Lemma wf_list_top l : wf_list false l -> forall top, wf_list top l.
Proof.
  induction l as [|skip n lg l IH]; intros W top; [constructor|].
  inversion W as [|x1 x2 x3 x4 x5 S N G L]; subst. constructor; auto.
  clear -N. destruct n. inversion N; subst. constructor; auto. intros X. exfalso.
  match goal with H : is_eof _ = true -> _ |- _ => discriminate (H X) end.
Qed.

Theorem print_means {Sp} (d : document Sp) : writable_list d ->
  means true (print_document d) (without_spans d).
Proof.
  intros W. apply (proj2 writable_canon) in W. destruct W as [W [R C]].
  change (print_document d) with (render_lgap [] ++ print_document d). rewrite <- R.
  apply (render_means ([], canon_list d)); [|exact C].
  split; [constructor|]. apply wf_list_top, W.
Qed.

Theorem print_parse {Sp} (d : document Sp) : writable_list d ->
  exists d', parse_ast_span (print_document d) = Parsed d'
    /\ without_spans d' = without_spans d.
Proof. intros W. apply parse_span_complete, print_means, W. Qed.

(** ** What the grammar gives can be written *)

Section Parsed.
Context {Sp : Type} {E : env Sp}.

Lemma stripped_forall (P : char -> Prop) s t : stripped s t ->
  Forall (fun c => c = 0x5F%N \/ P c) s -> Forall P t.
Proof.
  induction 1 as [|s t H IH|c s t N H IH]; intros F; inversion F; subst; auto.
  constructor; auto. tauto.
Qed.

Lemma integer_forall n s : integer_text n s -> Forall (digit_or_underscore n) s.
Proof.
  destruct 1. constructor; auto. right. assumption.
Qed.

Lemma radix_digit2 n c : (n = 2 \/ n = 8 \/ n = 10 \/ n = 16)%N -> digit_char n c ->
  c <> 0x5F%N.
Proof.
  intros N D. assert (exists r, radix_value r = n) as [r <-].
  { destruct N as [->|[->|[->| ->]]]; [exists Bin|exists Oct|exists Dec|exists Hex];
      reflexivity. }
  apply (radix_digit r), D.
Qed.

Lemma stripped_integer n s t : (n = 2 \/ n = 8 \/ n = 10 \/ n = 16)%N ->
  integer_text n s -> stripped s t -> t <> [] /\ Forall (digit_char n) t.
Proof.
  intros N I S. split; [|eapply stripped_forall; [exact S|]; apply integer_forall, I].
  destruct I as [d ds D F]. inversion S; subst; [|discriminate].
  destruct (radix_digit2 n 0x5F%N N D). reflexivity.
Qed.

Lemma stripped_app a : forall b t, stripped (a ++ b) t ->
  exists ta tb, t = ta ++ tb /\ stripped a ta /\ stripped b tb.
Proof.
  induction a as [|c a IH]; intros b t H; cbn [app] in H.
  - exists [], t. split; [reflexivity|]. split; [constructor|exact H].
  - inversion H as [|s0 t0 S|c0 s0 t0 N S]; subst.
    + destruct (IH _ _ S) as [ta [tb [-> [A B]]]]. exists ta, tb. repeat split; auto.
      constructor. exact A.
    + destruct (IH _ _ S) as [ta [tb [-> [A B]]]]. exists (c :: ta), tb.
      repeat split; auto. constructor; assumption.
Qed.

Lemma stripped_none s t : stripped s t -> ~ In 0x5F%N t.
Proof. induction 1; cbn [In]; tauto. Qed.

Lemma integer_again n ds : ds <> [] -> Forall (digit_char n) ds -> integer_text n ds.
Proof.
  intros N F. destruct F as [|d ds D F]; [congruence|]. constructor; [exact D|].
  eapply Forall_impl; [|exact F]. intros c C. right. exact C.
Qed.

Lemma stripped_fraction f t : fraction_text f -> stripped f t ->
  fraction_text t /\ (t = [] -> f = []).
Proof.
  destruct 1 as [|u I]; intros S; inversion S; subst.
  - split; [constructor|auto].
  - match goal with H : stripped u _ |- _ => apply (stripped_integer 10%N) in H; auto;
      destruct H as [Ne F] end.
    split; [|discriminate]. constructor. apply integer_again; assumption.
Qed.

Lemma stripped_sign sg t : opt_sign_text sg -> stripped sg t -> t = sg.
Proof.
  destruct 1 as [|c C]; intros S; inversion S; subst; auto.
  - destruct C; discriminate.
  - f_equal. match goal with H : stripped [] _ |- _ => inversion H end. reflexivity.
Qed.

Lemma stripped_exponent e t : exponent_text e -> stripped e t ->
  exponent_text t /\ (t = [] -> e = []).
Proof.
  destruct 1 as [|c sg ds C Sg F]; intros S.
  - inversion S; subst. split; [constructor|auto].
  - assert (c <> 0x5F%N) as U by (destruct C; subst; discriminate).
    inversion S as [| |c0 s0 t0 _ S0]; subst; [congruence|]. split; [|discriminate].
    apply stripped_app in S0. destruct S0 as [ta [tb [-> [A B]]]].
    rewrite (stripped_sign sg ta Sg A). apply Exp_some; auto.
    eapply Forall_impl; [|eapply (stripped_forall (digit_char 10%N)); [exact B|]].
    + intros x X. right. exact X.
    + exact F.
Qed.

Lemma sign_no_underscore sg : opt_sign_text sg -> ~ In 0x5F%N sg.
Proof. destruct 1 as [|c [->| ->]]; cbn [In]; intuition discriminate. Qed.

Lemma number_writable s l : number_text s l -> writable_literal l.
Proof.
  destruct 1 as [sg x n r s t Sg R I S|sg s t Sg I S|sg s f e t Sg I Fr Ex N S];
    cbn [writable_literal].
  - exists sg, t. split; [reflexivity|]. split; [exact Sg|].
    cbn [radix_prefixes In] in R.
    destruct R as [R|[R|[R|[]]]]; injection R as <- <- <-;
      eapply stripped_integer; eauto.
  - exists sg, t. split; [reflexivity|]. split; [exact Sg|].
    eapply stripped_integer; eauto.
  - pose proof (stripped_none _ _ S) as U.
    apply stripped_app in S. destruct S as [ts [t2 [-> [S1 S2]]]].
    apply stripped_app in S2. destruct S2 as [tf [te [-> [S2 S3]]]].
    exists sg, ts, tf, te. split; [reflexivity|]. split; [exact Sg|].
    destruct (stripped_integer 10%N s ts) as [Ne F]; auto.
    split; [apply integer_again; assumption|].
    destruct (stripped_fraction f tf Fr S2) as [F1 F2].
    destruct (stripped_exponent e te Ex S3) as [E1 E2].
    split; [exact F1|]. split; [exact E1|]. split.
    + intros X. apply app_eq_nil in X. destruct X as [X Y]. apply N.
      rewrite (F2 X), (E2 Y). reflexivity.
    + intros X. apply in_app_or in X. destruct X as [X|X]; [|auto].
      apply (sign_no_underscore sg Sg X).
Qed.

Lemma literal_writable s l : literal_text s l -> writable_literal l.
Proof. destruct 1; try exact I. eapply number_writable; eassumption. Qed.

Lemma type_writable s ty : type_text s ty -> writable_type ty.
Proof.
  destruct 1 as [s n ty _ N]. destruct N as [t b H|t H]; [|exact H].
  cbn [type_names In] in H. cbn [writable_type].
  repeat (destruct H as [H|H]; [injection H as <- <-; split; discriminate|]). destruct H.
Qed.

Lemma value_writable (s : toks Sp) v : value_at s v -> writable_value v.
Proof.
  destruct 1; split; cbn; auto; try (eapply literal_writable; eassumption).
  eapply type_writable; eassumption.
Qed.

Lemma plain_item_writable (s : toks Sp) i : plain_item_at s i ->
  match i with Argument v | Property _ v => writable_value v | Nothing => True end.
Proof. destruct 1; eapply value_writable; eassumption. Qed.

Lemma items_writable strict (s : toks Sp) rest l : items_at strict s rest l ->
  Forall writable_value (arguments_of l)
  /\ Forall (fun kv => writable_value (snd kv)) (properties_of l).
Proof.
  induction 1 as [|sp s t rest i l _ _ _ Hi _ [IH1 IH2]]; [split; constructor|].
  destruct Hi as [s r i P|d s r i D P]; [|split; assumption].
  apply plain_item_writable in P. destruct i; cbn; split; auto.
Qed.

Lemma property_map_writable (l m : list (spanned text Sp * value Sp)) : property_map l m ->
  Forall (fun kv => writable_value (snd kv)) l -> Forall (fun kv => writable_value (snd kv)) m.
Proof.
  intros [_ M] F. rewrite Forall_forall in F |- *. intros kv K. apply M in K.
  destruct K as [b1 [v1 [a1 [b2 [k2 [a2 [_ [_ [-> _]]]]]]]]].
  apply (F (k2, snd kv)). apply in_or_app. right. left. reflexivity.
Qed.

Lemma grammar_writable strict :
  (forall (s rest : toks Sp) n, node_at strict s rest n -> writable n)
  /\ (forall (s rest : toks Sp) c, children_at strict s rest c ->
        forall l, c = Some l -> writable_list (s_value l))
  /\ (forall (s rest : toks Sp) l, braces_at strict s rest l -> writable_list l)
  /\ (forall (s rest : toks Sp) l, nodes_at strict s rest l -> writable_list l)
  /\ (forall (s rest : toks Sp) l, node_list_at strict s rest l -> writable_list l).
Proof.
  apply kdl_mut; intros; subst; try discriminate; try assumption.
  - match goal with H : items_at _ _ _ _ |- _ => apply items_writable in H; destruct H as [A P] end.
    match goal with H : property_map _ _ |- _ => rename H into M end.
    constructor; auto.
    + match goal with H : opt_type_at _ _ |- _ => destruct H; cbn; auto end.
      eapply type_writable; eassumption.
    + apply M.
    + eapply property_map_writable; eassumption.
  - match goal with H : Some _ = Some _ |- _ => injection H as <- end. assumption.
  - constructor.
  - constructor; assumption.
Qed.

End Parsed.

Theorem parsed_writable t d : parse_ast_span t = Parsed d -> writable_list d.
Proof.
  intros H. apply parse_span_tokens in H.
  apply (proj1 (proj2 (proj2 (proj2 (grammar_writable false)))) _ _ _ H).
Qed.

(** Writing out what was read gives the same document again. *)
Theorem parse_print_parse t d : parse_ast_span t = Parsed d ->
  exists d', parse_ast_span (print_document d) = Parsed d'
    /\ without_spans d' = without_spans d.
Proof. intros H. apply print_parse. eapply parsed_writable, H. Qed.
