(** Theorem C45: expansions compose. *)
From Verif Require Import PropFacts1 CodeFacts ElementFacts Inv Fuel ExampleFacts.
From Verif Require Import Follow Context Same Properties2 Properties4 Properties7.
From Verif Require Import SpecStr SpecGrammar SpecOut SpecRead SpecContext SpecCompose Lex Macro.
Open Scope list_scope.
Open Scope expand_scope.

(** ** The place of an element only matters for the order of slots *)

Lemma steady_nodes E l : (forall e, In (CElement e) l -> forall p q, expand_element E p false e = expand_element E q false e) ->
  forall p q n m, expand_nodes E p n l = expand_nodes E q m l.
Proof.
  induction l as [|c l IH]; intros He p q n m; [reflexivity|].
  assert (IH' := IH (fun e Hin => He e (or_intror Hin)) p q (S n) (S m)).
  destruct c as [v|e|e]; cbn [expand_nodes expand_node].
  - now rewrite IH'.
  - rewrite IH'. rewrite (He e (or_introl eq_refl) (n :: p) (m :: q)). reflexivity.
  - exact IH'.
Qed.
Lemma steady_slots E l : (forall e, In (CSlot e) l -> forall p q, expand_element E p true e = expand_element E q true e) ->
  forall p q n m, expand_slots E p n l = expand_slots E q m l.
Proof.
  induction l as [|c l IH]; intros He p q n m; [reflexivity|].
  assert (IH' := IH (fun e Hin => He e (or_intror Hin)) p q (S n) (S m)).
  destruct c as [v|e|e]; cbn [expand_slots]; try exact IH'.
  rewrite IH'. rewrite (He e (or_introl eq_refl) (n :: p) (m :: q)). reflexivity.
Qed.
Lemma steady_element E e : steady E -> forall slot p q, expand_element E p slot e = expand_element E q slot e.
Proof.
  intros HS. induction e as [t sels attrs args ch IHe IHs] using element_children_ind. intros slot p q.
  rewrite !expand_element_eq.
  assert (Hn : option_map (expand_nodes E p 0) ch = option_map (expand_nodes E q 0) ch).
  { destruct ch as [l|]; [|reflexivity]. cbn [option_map child_list] in *. f_equal. apply steady_nodes. intros e Hin. now apply IHe. }
  assert (Hs : option_map (expand_slots E p 0) ch = option_map (expand_slots E q 0) ch).
  { destruct ch as [l|]; [|reflexivity]. cbn [option_map child_list] in *. f_equal. apply steady_slots. intros e Hin. now apply IHs. }
  rewrite Hn, Hs. assert (Hst : forall l, slots_to_tokens E p l = slots_to_tokens E q l).
  { intros l. unfold slots_to_tokens. apply xbind_ext. intros m. now rewrite (HS p q). }
  assert (Hc : forall b ns sl, component_to_tokens E p b t sels attrs args ns sl = component_to_tokens E q b t sels attrs args ns sl).
  { intros b ns sl. unfold component_to_tokens. destruct t; auto. f_equal.
    apply xbind_ext. intros p'. apply xbind_ext. intros d0. apply xbind_ext. intros [[props dirs] clones].
    apply xbind_ext. intros c. destruct sl as [l|]; [now rewrite Hst|reflexivity]. }
  unfold element_tokens. now rewrite !Hc.
Qed.

(** ** The code of the children of the root *)

Definition gives_all (E : env) (cs : list child) (codes : list (list tt)) : Prop :=
  Forall2 (fun m a => m gives a) (expand_nodes E [] 0 cs) codes.
Lemma all2_length {A B} (R : A -> B -> Prop) l l' : Forall2 R l l' -> List.length l = List.length l'.
Proof. induction 1; cbn [List.length]; auto. Qed.
Lemma nodes_length E p n cs : (forall e, ~ In (CSlot e) cs) -> List.length (expand_nodes E p n cs) = List.length cs.
Proof.
  revert n. induction cs as [|[v|e|e] cs IH]; intros n Hs; cbn [expand_nodes List.length]; auto.
  - f_equal. apply IH. intros x Hx. apply (Hs x). now right.
  - f_equal. apply IH. intros x Hx. apply (Hs x). now right.
  - destruct (Hs e). now left.
Qed.
Lemma root_gives E cs out : root_tokens E cs gives out <->
  (forall e, ~ In (CSlot e) cs) /\ exists codes, gives_all E cs codes /\ out = root_of codes.
Proof.
  assert (Hmany : List.length cs <> 1 ->
     (if existsb is_slot cs then xabort DRootSlot
      else
        l <- xseq (expand_nodes E [] 0 cs) ;;
        xret [TGroup Brace
                ([pu "#"; TGroup Bracket [kw "allow"; par [kw "unused_braces"]]]
                 ++ children_fragment_tokens l)]) gives out <->
     (forall e, ~ In (CSlot e) cs) /\ exists codes, gives_all E cs codes /\ out = root_of codes).
  { intros Hl. assert (Hroot : forall codes, (forall e, ~ In (CSlot e) cs) -> gives_all E cs codes -> root_of codes = root_frame (fragment codes)).
    { intros codes Hs Hg. apply all2_length in Hg. rewrite nodes_length in Hg by auto.
      destruct codes as [|c [|c' codes]]; auto. now destruct Hl. }
    split.
    - intros H. destruct (existsb is_slot cs) eqn:Hs; [discriminate|].
      assert (Hns : forall e, ~ In (CSlot e) cs).
      { intros e Hin. assert (existsb is_slot cs = true) by (apply is_slot_iff; eauto). congruence. }
      split; auto. apply xbind_ok in H. destruct H as (l & Hq & H). apply xseq_ok in Hq. rewrite xret_ok in H. subst.
      exists l. split; auto. now rewrite Hroot, fragment_eq.
    - intros [Hns (codes & Hg & ->)]. assert (Hx : existsb is_slot cs = false).
      { destruct (existsb is_slot cs) eqn:Hx; auto. apply is_slot_iff in Hx. destruct Hx as (e & He). exfalso. eapply Hns; eauto. }
      rewrite Hx. apply xbind_ok. exists codes. rewrite xseq_ok. split; auto. now rewrite Hroot, fragment_eq. }
  destruct cs as [|c [|c' cs]]; [apply Hmany; discriminate|clear Hmany|apply Hmany; cbn; lia].
  assert (Hone : forall x, (forall e, c <> CSlot e) -> gives_all E [c] x <-> exists code, x = [code] /\ expand_node E [0] c gives code).
  { intros x Hc. unfold gives_all. assert (He : expand_nodes E [] 0 [c] = [expand_node E [0] c]).
    { destruct c as [v|e|e]; auto. now destruct (Hc e). }
    rewrite He. split.
    - intros H. inversion H as [|? code ? r Hm Hr]; subst. inversion Hr; subst. eauto.
    - intros (code & -> & Hm). constructor; auto. }
  split.
  - intros H. assert (Hc : forall e, c <> CSlot e) by (intros e ->; discriminate H).
    split; [intros e [Hx|[]]; now apply (Hc e)|].
    assert (H' : (ts <- expand_node E [0] c ;;
          xret [TGroup Brace
                  ([pu "#"; TGroup Bracket [kw "allow"; par [kw "unused_braces"]]] ++ ts)]) gives out).
    { destruct c; try exact H. now destruct (Hc e). }
    apply xbind_ok in H'. destruct H' as (code & Hm & H'). rewrite xret_ok in H'. subst.
    exists [code]. split; [apply Hone; eauto|reflexivity].
  - intros [Hns (codes & Hg & ->)]. assert (Hc : forall e, c <> CSlot e) by (intros e ->; apply (Hns e); now left).
    apply Hone in Hg; auto. destruct Hg as (code & -> & Hm).
    assert (H' : (ts <- expand_node E [0] c ;;
          xret [TGroup Brace
                  ([pu "#"; TGroup Bracket [kw "allow"; par [kw "unused_braces"]]] ++ ts)]) gives root_of [code]).
    { apply xbind_ok. exists code. split; auto. }
    destruct c; try exact H'. now destruct (Hc e).
Qed.
Lemma expands_gives E input cs out : expands E input cs out <->
  env_ok E /\ wf input /\ children_phrase E input cs /\ (forall e, ~ In (CSlot e) cs) /\
  exists codes, gives_all E cs codes /\ out = root_of codes.
Proof.
  unfold expands. split; intros (HE & Hw & Hc & H); split; auto; split; auto; split; auto;
    assert (Hp : children_of E on input >> cs, []) by (apply children_of_ok; auto);
    unfold mview in *; unfold children_of in Hp; rewrite Hp in *.
  - apply root_gives. destruct (root_tokens E cs) as [[ts| |w] [|d ds]]; try discriminate H. cbn in H. now inversion H.
  - apply root_gives in H. now rewrite H.
Qed.
Lemma non_slots_all cs : (forall e, ~ In (CSlot e) cs) -> non_slots cs = cs.
Proof.
  induction cs as [|[v|e|e] cs IH]; intros Hs; cbn [non_slots]; auto; try (f_equal; apply IH; intros x Hx; apply (Hs x); now right).
  destruct (Hs e). now left.
Qed.
Lemma gives_nodes E cs codes : env_ok E -> (forall e, ~ In (CSlot e) cs) -> gives_all E cs codes -> Forall2 node_code cs codes.
Proof.
  intros HE Hs H. assert (Hn : nodes_code cs codes).
  { apply (nodes_sound E [] cs) with (n := 0); auto. intros e _. apply (expand_sound E e HE). }
  apply nodes_each in Hn. rewrite non_slots_all in Hn; auto.
Qed.
Lemma nodes_app E p n a b : steady E -> expand_nodes E p n (a ++ b) = expand_nodes E p n a ++ expand_nodes E p n b.
Proof.
  intros HS. revert n. induction a as [|c a IH]; intros n; [reflexivity|].
  assert (Hb : expand_nodes E p (S n) b = expand_nodes E p n b).
  { apply steady_nodes. intros e _. now apply steady_element. }
  destruct c as [v|e|e]; cbn [app expand_nodes]; rewrite IH, Hb; reflexivity.
Qed.

(** ** C45: expansions compose *)

(** The expansion of two views written one after the other consists of the
    parts of their expansions. *)
Theorem C45_siblings E a cs o b cs' o' : steady E -> expands E a cs o -> expands E b cs' o' ->
  exists codes codes', Forall2 node_code cs codes /\ Forall2 node_code cs' codes' /\
    o = root_of codes /\ o' = root_of codes' /\ mview E (a ++ b) = Expanded (root_of (codes ++ codes')).
Proof.
  intros HS Ha Hb. apply expands_gives in Ha. destruct Ha as (HE & Hwa & Hca & Hsa & codes & Hga & ->).
  apply expands_gives in Hb. destruct Hb as (_ & Hwb & Hcb & Hsb & codes' & Hgb & ->).
  exists codes, codes'. split; [eapply gives_nodes; eauto|]. split; [eapply gives_nodes; eauto|].
  split; auto. split; auto.
  assert (Hw : wf (a ++ b)) by (apply wf_app; auto).
  apply (proj2 (expands_gives E (a ++ b) (cs ++ cs') _)). split; auto. split; auto. split; [|split].
  - assert (Hx : children_of E (a ++ b) = PR (Ret (cs ++ cs')) [] []).
    { rewrite (children_app E a cs b); auto. assert (Hy : children_of E on b >> cs', []) by (apply children_of_ok; auto).
      rewrite Hy. reflexivity. }
    apply children_of_ok in Hx; tauto.
  - intros e Hin. apply in_app_or in Hin. destruct Hin as [Hin|Hin]; [now apply (Hsa e)|now apply (Hsb e)].
  - exists (codes ++ codes'). split; auto. unfold gives_all. rewrite nodes_app by auto. now apply Forall2_app.
Qed.
Print Assumptions C45_siblings.

(** ** Putting a view into the block of an element *)

Lemma nest_phrase E h e a cs : env_ok E ->
  children_phrase E (h ++ [TGroup Paren []]) [CElement e] -> children_phrase E a cs ->
  exists t sels attrs args, e = Element t sels attrs args (Some []) /\
    children_phrase E (h ++ [TGroup Paren a]) [CElement (Element t sels attrs args (Some cs))].
Proof.
  intros HE H Ha. inversion H as [|ts c ts' cs' H1 H2 Hts Hc]; subst. inversion H2; subst. rewrite app_nil_r in *. subst ts.
  inversion H1 as [|? ? ? Hel Hid Hns Hnv|]; subst. apply element_phrase_g_iff in Hel. apply element_phrase_head in Hel.
  destruct Hel as (u & v & t & sels & attrs & args & ch & Hs & -> & Hh & Hend).
  assert (Ho : opens None (h ++ [TGroup Paren []])).
  { rewrite app_nil_r in Hns, Hnv. split; auto. }
  assert (Hx : exists ar, v = args_tokens ar ++ [TGroup Paren []] /\ args_fine ar /\ args = args_kept ar /\ ch = Some []).
  { assert (Hl : forall w z, u ++ w ++ [z] = h ++ [TGroup Paren []] -> z = TGroup Paren [] /\ u ++ w = h).
    { intros w z Hq. rewrite app_assoc in Hq. apply app_inj_tail in Hq. tauto. }
    destruct Hend as [sp|b l Hb|sp ar sp' b l Har Hb].
    - destruct (Hl [] (TPunct ";" sp)) as [Hq _]; [now symmetry|discriminate].
    - exists None. destruct Hb as [inner l Hi|inner l Hi].
      + destruct (Hl [] (TGroup Brace inner)) as [Hq _]; [now symmetry|discriminate].
      + destruct (Hl [] (TGroup Paren inner)) as [Hq _]; [now symmetry|]. inversion Hq; subst.
        inversion Hi; subst; [|exfalso]. { repeat split; auto. }
        match goal with Hc : child_phrase _ ?x _ _, Hq : ?x ++ _ = [] |- _ => apply app_eq_nil in Hq; destruct Hq; subst; apply child_phrase_g_iff in Hc; now apply child_nonempty in Hc end.
    - exists (Some (sp, ar, sp')). destruct Hb as [inner l Hi|inner l Hi].
      + destruct (Hl (TPunct "|" sp :: ar ++ [TPunct "|" sp']) (TGroup Brace inner)) as [Hq _]; [|discriminate].
        rewrite Hs. cbn. now rewrite <- app_assoc.
      + destruct (Hl (TPunct "|" sp :: ar ++ [TPunct "|" sp']) (TGroup Paren inner)) as [Hq _].
        { rewrite Hs. cbn. now rewrite <- app_assoc. }
        inversion Hq; subst.
        inversion Hi; subst; [|exfalso]. { repeat split; auto. cbn. now rewrite <- app_assoc. }
        match goal with Hc : child_phrase _ ?x _ _, Hq : ?x ++ _ = [] |- _ => apply app_eq_nil in Hq; destruct Hq; subst; apply child_phrase_g_iff in Hc; now apply child_nonempty in Hc end. }
  destruct Hx as (ar & -> & Hf & -> & ->).
  exists t, sels, attrs, (args_kept ar). split; auto.
  rewrite app_assoc in Hs. apply app_inj_tail in Hs. destruct Hs as [-> _].
  assert (Hu : upto Narrow [TGroup Paren []] [TGroup Paren a]) by (apply up_stop, ss_group; tauto).
  rewrite <- (app_nil_r ((u ++ args_tokens ar) ++ [TGroup Paren a])). apply ch_cons; [|constructor].
  apply (upto_opens None _ _ (upto_app (u ++ args_tokens ar) _ _ Hu)) in Ho. destruct Ho as (Hid' & Hns' & Hnv').
  apply ch_element; auto; [|now rewrite app_nil_r|now rewrite app_nil_r].
  apply element_phrase_g_iff, element_phrase_head. exists u, (args_tokens ar ++ [TGroup Paren a]), t, sels, attrs, (args_kept ar), (Some cs).
  split; [now rewrite app_assoc|]. split; auto. split.
  - rewrite app_nil_r in Hh |- *.
    eapply upto_head; [auto| |apply (upto_app (args_tokens ar)), Hu|apply args_not_op| |exact Hh]; [discriminate|].
    destruct ar as [[[sp l] sp']|]; cbn; auto.
  - destruct ar as [[[sp l] sp']|]; cbn [args_tokens args_kept].
    + cbn. rewrite <- app_assoc. apply end_args; auto. now constructor.
    + apply end_block. now constructor.
Qed.

Lemma steady_gives E cs codes p n : steady E -> gives_all E cs codes ->
  Forall2 (fun m a => m gives a) (expand_nodes E p n cs) codes.
Proof.
  intros HS H. unfold gives_all in H.
  rewrite (steady_nodes E cs (fun e _ => steady_element E e HS false) p [] n 0). exact H.
Qed.
Lemma slots_none E p n cs : (forall e, ~ In (CSlot e) cs) -> expand_slots E p n cs = [].
Proof.
  revert n. induction cs as [|[v|e|e] cs IH]; intros n Hs; cbn [expand_slots]; auto; try (apply IH; intros x Hx; apply (Hs x); now right).
  destruct (Hs e). now left.
Qed.
Lemma slots_to_none E p : env_ok E -> slots_to_tokens E p [] gives [].
Proof.
  intros (_ & _ & Ho). unfold slots_to_tokens. apply xbind_ok. exists []. split; [reflexivity|].
  assert (Hn : slot_order E p (map fst (@nil (ident * list (list tt)))) = []).
  { apply Permutation.Permutation_nil. apply Ho. }
  apply xbind_ok. exists []. rewrite xseq_ok. split; [|reflexivity].
  cbn [map] in *. rewrite Hn. constructor.
Qed.

Lemma gives_element E e codes : gives_all E [CElement e] codes ->
  exists x, codes = [rendered x] /\ expand_element E [0] false e gives x.
Proof.
  intros H. inversion H as [|m c ms cs' Hm Hr]; subst. inversion Hr; subst.
  cbn [expand_node] in Hm. apply xbind_ok in Hm. destruct Hm as (x & Hx & Hm). rewrite xret_ok in Hm. subst c. eauto.
Qed.

(** A view in the block of an HTML, SVG or MathML element: the expansion is
    that of the element with an empty block, with a call of [child] for the
    code of each child of the view. *)
Theorem C45_html E h e o a cs o' : steady E ->
  expands E (h ++ [TGroup Paren []]) [CElement e] o -> (forall p, el_tag e <> TagComponent p) ->
  expands E a cs o' ->
  exists x codes, o = root_frame (rendered x) /\ o' = root_of codes /\ Forall2 node_code cs codes /\
    mview E (h ++ [TGroup Paren a]) = Expanded (root_frame (rendered (x ++ chain (map child_call codes)))).
Proof.
  intros HS He Ht Ha. apply expands_gives in He. destruct He as (HE & Hwe & Hce & Hse & ecodes & Hge & ->).
  apply expands_gives in Ha. destruct Ha as (_ & Hwa & Hca & Hsa & codes & Hga & ->).
  destruct (nest_phrase E h e a cs HE Hce Hca) as (t & sels & attrs & args & -> & Hc).
  apply gives_element in Hge. destruct Hge as (x & -> & Hx). rewrite expand_element_eq in Hx. unfold element_tokens in Hx.
  cbn [option_map expand_nodes expand_slots] in Hx.
  exists x, codes. split; auto. split; auto. split; [eapply gives_nodes; eauto|].
  apply (proj2 (expands_gives E (h ++ [TGroup Paren a]) [CElement (Element t sels attrs args (Some cs))] _)).
  split; auto. split.
  { apply wf_app in Hwe. destruct Hwe as [Hwh _]. apply wf_app. split; auto. constructor; [now apply wf_group|constructor]. }
  split; auto. split; [intros e [Hq|[]]; discriminate|].
  exists [into_render (x ++ chain (map child_call codes))]. split; [|reflexivity].
  constructor; [|constructor]. cbn [expand_node]. apply xbind_ok.
  exists (x ++ chain (map child_call codes)). split; [|reflexivity].
  rewrite expand_element_eq. unfold element_tokens in *. cbn [option_map] in *. cbn [el_tag] in Ht.
  assert (Hxm : forall n, exists m, xml_to_tokens t sels attrs n = Some m).
  { intros n. unfold xml_to_tokens. destruct t; cbn; eauto. now destruct (Ht p). }
  destruct (Hxm (Some [])) as (m1 & H1). destruct (Hxm (Some (expand_nodes E [0] 0 cs))) as (m2 & H2).
  rewrite H1 in Hx. rewrite H2. apply (xml_ok _ _ _ _ _ _ H1) in Hx. apply (xml_ok _ _ _ _ _ _ H2).
  destruct Hx as (hd & kvs & dirs & no & Hh & Hk & Hd & Hn & ->). inversion Hn; subst no.
  exists hd, kvs, dirs, codes. split; auto. split; auto. split; auto. split; [now apply steady_gives|].
  rewrite <- app_assoc. f_equal. rewrite <- chain_app. f_equal. cbn [map]. rewrite app_nil_r, <- !app_assoc. reflexivity.
Qed.
Print Assumptions C45_html.

(** A view in the block of a component: the expansion is that of the component
    with an empty block, with a call of [children] after its properties. *)
Theorem C45_component E h e o a cs o' p : steady E ->
  expands E (h ++ [TGroup Paren []]) [CElement e] o -> el_tag e = TagComponent p ->
  expands E a cs o' ->
  exists path props entries clones codes,
    o = root_frame (rendered (component_frame path props entries)) /\
    o' = root_of codes /\ Forall2 node_code cs codes /\ Forall2 clone_code (clones_of (el_attrs e)) clones /\
    mview E (h ++ [TGroup Paren a]) =
      Expanded (root_frame (rendered (component_frame path (props ++ children_calls (el_args e) clones codes) entries))).
Proof.
  intros HS He Ht Ha. apply expands_gives in He. destruct He as (HE & Hwe & Hce & Hse & ecodes & Hge & ->).
  apply expands_gives in Ha. destruct Ha as (_ & Hwa & Hca & Hsa & codes & Hga & ->).
  destruct (nest_phrase E h e a cs HE Hce Hca) as (t & sels & attrs & args & -> & Hc).
  cbn [el_tag el_attrs el_args] in *. subst t.
  apply gives_element in Hge. destruct Hge as (x & -> & Hx). rewrite expand_element_eq in Hx. unfold element_tokens in Hx.
  cbn [xml_to_tokens xml_tag_path option_map expand_nodes expand_slots] in Hx.
  apply component_ok in Hx. destruct Hx as (path & props & entries & clones & no & sl & H1 & H2 & H3 & H4 & H5 & H6 & H7 & H8 & ->).
  inversion H7; subst no. assert (sl = []) as ->.
  { pose proof (slots_to_none E [0] HE) as Hn. rewrite Hn in H8. now inversion H8. }
  exists path, props, (selector_entries sels ++ entries), clones, codes.
  split. { cbn [children_calls]. rewrite <- (app_nil_r props), <- (app_nil_r (props ++ [])), <- app_assoc.
           rewrite component_frame_eq. cbn [root_of]. rewrite app_nil_r. reflexivity. }
  split; auto. split; [eapply gives_nodes; eauto|]. split; auto.
  apply (proj2 (expands_gives E (h ++ [TGroup Paren a]) [CElement (Element (TagComponent p) sels attrs args (Some cs))] _)).
  split; auto. split.
  { apply wf_app in Hwe. destruct Hwe as [Hwh _]. apply wf_app. split; auto. constructor; [now apply wf_group|constructor]. }
  split; auto. split; [intros e [Hq|[]]; discriminate|].
  eexists [into_render _]. split; [|reflexivity].
  constructor; [|constructor]. cbn [expand_node]. apply xbind_ok.
  eexists. split; [|reflexivity].
  rewrite expand_element_eq. unfold element_tokens. cbn [xml_to_tokens xml_tag_path option_map].
  apply component_ok. exists path, props, entries, clones, codes, [].
  repeat split; auto; try discriminate.
  - now apply steady_gives.
  - rewrite slots_none by auto. now apply slots_to_none.
  - rewrite <- (app_nil_r (children_calls args clones codes)) at 1. rewrite component_frame_eq. reflexivity.
Qed.
Print Assumptions C45_component.

(** ** Cases *)

Lemma E0_steady : steady E0.
Proof. intros p q ks. reflexivity. Qed.
Definition compose_a : list tt := lex "p.c('one') 'two'".
Definition compose_b : list tt := lex "Show when={x}(i;)".
Definition compose_h : list tt := lex "div #top class:on={x}".
Definition compose_c : list tt := lex "Comp name={n} clone:y |z|".
Lemma compose_one input e : expands E0 input (tree_of input) (out_of input) -> tree_of input = [e] ->
  expands E0 input [e] (out_of input).
Proof. now intros H <-. Qed.
Example C45_siblings_case : List.length (tree_of compose_a) = 2 /\ exists codes codes',
  out_of compose_a = root_of codes /\ out_of compose_b = root_of codes' /\
  List.length codes = 2 /\ List.length codes' = 1 /\
  mview E0 (compose_a ++ compose_b) = Expanded (root_of (codes ++ codes')).
Proof.
  split; [vm_compute; reflexivity|].
  destruct (C45_siblings E0 compose_a (tree_of compose_a) (out_of compose_a)
              compose_b (tree_of compose_b) (out_of compose_b)) as (codes & codes' & Hc & Hc' & H1 & H2 & H3).
  - exact E0_steady.
  - apply case_expands; vm_compute; reflexivity.
  - apply case_expands; vm_compute; reflexivity.
  - exists codes, codes'. split; auto. split; auto.
    split; [rewrite <- (all2_length _ _ _ Hc); vm_compute; reflexivity|].
    split; [rewrite <- (all2_length _ _ _ Hc'); vm_compute; reflexivity|]. exact H3.
Qed.
Definition root_element (input : list tt) : element :=
  match tree_of input with [CElement e] => e | _ => Element (TagHtml (Id false "p")) [] [] None None end.
Example C45_html_case : exists x codes, out_of (compose_h ++ [TGroup Paren []]) = root_frame (rendered x) /\
  out_of compose_a = root_of codes /\ List.length codes = 2 /\
  mview E0 (compose_h ++ [TGroup Paren compose_a]) = Expanded (root_frame (rendered (x ++ chain (map child_call codes)))).
Proof.
  destruct (C45_html E0 compose_h (root_element (compose_h ++ [TGroup Paren []])) (out_of (compose_h ++ [TGroup Paren []]))
              compose_a (tree_of compose_a) (out_of compose_a)) as (x & codes & H1 & H2 & Hc & H3).
  - exact E0_steady.
  - apply compose_one; [apply case_expands; vm_compute; reflexivity|vm_compute; reflexivity].
  - intros p. vm_compute. discriminate.
  - apply case_expands; vm_compute; reflexivity.
  - exists x, codes. split; auto. split; auto.
    split; [rewrite <- (all2_length _ _ _ Hc); vm_compute; reflexivity|exact H3].
Qed.
(** With arguments and a clone, which the empty block leaves out. *)
Example C45_component_case : exists path props entries clones codes,
  out_of (compose_c ++ [TGroup Paren []]) = root_frame (rendered (component_frame path props entries)) /\
  out_of compose_a = root_of codes /\ List.length codes = 2 /\ List.length clones = 1 /\
  mview E0 (compose_c ++ [TGroup Paren compose_a]) =
  Expanded (root_frame (rendered (component_frame path
    (props ++ children_calls (Some [TPunct "|" Alone; TIdent (Id false "z"); TPunct "|" Alone]) clones codes) entries))).
Proof.
  destruct (C45_component E0 compose_c (root_element (compose_c ++ [TGroup Paren []])) (out_of (compose_c ++ [TGroup Paren []]))
              compose_a (tree_of compose_a) (out_of compose_a) (Path false [PSeg (Id false "Comp") PNone]))
    as (path & props & entries & clones & codes & H1 & H2 & Hc & Hcl & H3).
  - exact E0_steady.
  - apply compose_one; [apply case_expands; vm_compute; reflexivity|vm_compute; reflexivity].
  - vm_compute. reflexivity.
  - apply case_expands; vm_compute; reflexivity.
  - exists path, props, entries, clones, codes. split; auto. split; auto.
    split; [rewrite <- (all2_length _ _ _ Hc); vm_compute; reflexivity|].
    split; [rewrite <- (all2_length _ _ _ Hcl); vm_compute; reflexivity|].
    rewrite H3. f_equal.
Qed.
