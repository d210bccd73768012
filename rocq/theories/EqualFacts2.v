(** Reading code back: components, slots and whole trees. *)
From Verif Require Import Ast SpecStr SpecGrammar SpecOut SpecEqual EqualFacts.
From Coq Require Import Permutation.
Open Scope list_scope.

(** ** Attributes of components *)

(** What an item stands for. *)
Inductive item_code : item -> list tt -> Prop :=
| ic_text n k v ts : n = "class" \/ n = "style" -> value_code v ts ->
    item_code (IText n k v) (tachys_html [n; n] ++ [parens [parens (str k :: sym "," :: ts)]])
| ic_named n i v ts : value_code v ts -> ~ In i ("" :: reserved_words) ->
    item_code (INamed n i v) (tachys_html [n] ++ dcolon ++ [TIdent (Id true i); parens ts])
| ic_custom k v ts : value_code v ts ->
    item_code (ICustom k v)
      (tachys_html ["attribute"; "custom"; "custom_attribute"] ++ [parens (str k :: sym "," :: ts)])
| ic_on i (b : bool) v ts k ev : snake_name (k_repr k) = i ->
    event_code (KKebab k) (if b then Some (Id false "undelegated") else None) ev ->
    opt_value_code v ts ->
    item_code (IOn i b v) (tachys_html ["event"; "on"] ++ [parens (ev ++ sym "," :: ts)])
| ic_use i v ts k : snake_name (k_repr k) = i -> use_code (KKebab k) v ts ->
    item_code (IUse i v) (tachys_html ["directive"; "directive"] ++ [parens ts]).

Lemma item_inj a b ts : item_code a ts -> item_code b ts -> a = b.
Proof.
  intros H K.
  destruct H as [n k v ts Hn Hv|n i v ts Hv Hi|k v ts Hv|i b' v ts k ev Hi He Hv|i v ts k Hi Hu];
    inversion K as [n' l w us Hn' Hw E1 E2|n' j w us Hw Hj E1 E2|l w us Hw E1 E2|j c w us l ev' Hj He' Hw E1 E2|j w us l Hj Hu' E1 E2];
    subst; try (destruct Hn as [Hn|Hn]; subst; discriminate); try (destruct Hn' as [Hn'|Hn']; subst; discriminate);
    try discriminate.
  - f_equal. eapply value_inj; eassumption.
  - f_equal. eapply value_inj; eassumption.
  - f_equal. eapply value_inj; eassumption.
  - apply comma_first in E2 as [-> ->]; try (eapply event_no_comma; eassumption).
    destruct (event_inj _ _ _ _ _ He He') as [Hk Hm]. inversion Hk as [x y Hxy]; subst.
    f_equal; [exact Hxy|destruct b', c; now try discriminate|]. eapply opt_value_inj; eassumption.
  - destruct (use_inj _ _ _ _ _ Hu Hu') as [Hk Hm]. inversion Hk as [x y Hxy]; subst.
    f_equal. exact Hxy.
Qed.

Lemma true_or_code v ts : value_code (or_true v) ts -> value_or_true_code v ts.
Proof. destruct v; cbn; intros H; [now constructor|]. inversion H; subst. constructor. Qed.

Lemma entry_has_item a ts : entry_code a ts -> exists it, attr_item a it.
Proof.
  intros [ts'|n k m v ts' Hn Hv|n c m v ts' Hn Hv|k m v ts' Hc Hv|k i m v ts' H1 H2 H3 Hi Hv|k i m v ts' Hi Hv
         |k m v ev ts' He Hv|k v ts' Hu].
  - eexists. constructor.
  - eexists. now constructor.
  - eexists. now constructor.
  - eexists. now apply ai_custom.
  - eexists. now apply ai_attr.
  - eexists. now apply ai_prop.
  - inversion He; subst; eexists; [apply ai_on|apply ai_undelegated].
  - inversion Hu; subst; eexists; apply ai_use.
Qed.

Lemma no_dash_custom s : has_dash s -> s <> "class" /\ s <> "style".
Proof. unfold has_dash. intros H. split; intros ->; cbn in H; intuition discriminate. Qed.

Lemma entry_item a it ts : attr_item a it -> entry_code a ts -> it = ISpread ts \/ item_code it ts.
Proof.
  intros H K.
  destruct H as [us|n k m v Hn|n c m v Hn|k m v Hc|k m v H1 H2 H3|k m v|k v|k v|k v];
    inversion K as [ts'|n' l m' w ts' Hn' Hw E1 E2|n' c' m' w ts' Hn' Hw E1 E2|l m' w ts' Hc' Hw E1 E2
      |l i m' w ts' H1' H2' H3' Hi Hw E1 E2|l i m' w ts' Hi Hw E1 E2|l m' w ev ts' He Hw E1 E2|l w ts' Hu E1 E2];
    subst; try (destruct Hn as [Hn|Hn]; subst; discriminate); try (destruct Hn' as [Hn'|Hn']; subst; discriminate);
    try discriminate;
    try (destruct Hn as [Hn|Hn]; discriminate Hn).
  - now left.
  - right. constructor; [exact Hn|]. now apply or_true_code.
  - right. constructor; [now apply or_true_code|]. destruct Hn as [-> | ->]; cbn; intuition discriminate.
  - exfalso. destruct Hc' as [Hc' _]. apply no_dash_custom in Hc'. cbn in Hc'. tauto.
  - exfalso. cbn in *. tauto.
  - exfalso. destruct Hc as [Hc _]. apply no_dash_custom in Hc. cbn in Hc. tauto.
  - right. constructor. now apply or_true_code.
  - exfalso. cbn in *. tauto.
  - exfalso. cbn in *. tauto.
  - exfalso. cbn in *. tauto.
  - right. destruct Hi as [Hi ->]. constructor; [now apply or_true_code|exact Hi].
  - right. destruct Hi as [Hi ->]. constructor; [now apply or_true_code|exact Hi].
  - right. econstructor; [reflexivity| |exact Hw]. exact He.
  - right. econstructor; [reflexivity| |exact Hw]. exact He.
  - right. econstructor; [reflexivity|exact Hu].
Qed.

Lemma item_entry a it ts : attr_item a it -> item_code it ts -> entry_code a ts.
Proof.
  intros H K.
  destruct H as [us0|n k m v Hn|n c m v Hn|k m v Hc|k m v H1 H2 H3|k m v|k v|k v|k v];
    inversion K as [n' l w us Hn' Hw E1 E2|n' j w us Hw Hj E1 E2|l w us Hw E1 E2|j c' w us l ev' Hj He' Hw E1 E2|j w us l Hj Hu' E1 E2];
    subst.
  - apply en_class_style; [assumption|]. now apply true_or_code.
  - apply en_attr_class_style; [assumption|]. now apply true_or_code.
  - apply en_attr_custom; [assumption|]. now apply true_or_code.
  - apply en_attr; try assumption; [now split|]. now apply true_or_code.
  - apply en_prop; [now split|]. now apply true_or_code.
  - apply en_on; [|assumption]. eapply event_same; [|exact He']. now constructor.
  - apply en_on; [|assumption]. eapply event_same; [|exact He']. now constructor.
  - apply en_use. eapply use_same; [|exact Hu']. now constructor.
Qed.

Lemma item_fun it ts us : item_code it ts -> item_code it us -> ts = us.
Proof.
  intros H K.
  destruct H as [n k v ts Hn Hv|n i v ts Hv Hi|k v ts Hv|i b' v ts k ev Hi He Hv|i v ts k Hi Hu];
    inversion K as [n' l w us' Hn' Hw E1 E2|n' j w us' Hw Hj E1 E2|l w us' Hw E1 E2|j c w us' l ev' Hj He' Hw E1 E2|j w us' l Hj Hu' E1 E2];
    subst.
  - now rewrite (value_fun _ _ _ Hv Hw).
  - now rewrite (value_fun _ _ _ Hv Hw).
  - now rewrite (value_fun _ _ _ Hv Hw).
  - rewrite (opt_value_fun _ _ _ Hv Hw).
    assert (A : equal_key (KKebab l) (KKebab k)) by (constructor; exact Hj).
    apply (event_same _ _ _ _ A) in He'. destruct b'; inversion He as [? ? [_ A1]|? ? [_ A1]];
      inversion He' as [? ? [_ A2]|? ? [_ A2]]; subst; reflexivity.
  - assert (A : equal_key (KKebab l) (KKebab k)) by (constructor; exact Hj).
    apply (use_same _ _ _ _ A) in Hu'.
    inversion Hu as [? ? [_ A1]|? ? ? ? [_ A1] A3]; inversion Hu' as [? ? [_ A2]|? ? ? ? [_ A2] A4]; subst;
      try discriminate; [reflexivity|].
    match goal with H : Some _ = Some _ |- _ => injection H as -> end.
    now rewrite (value_fun _ _ _ A3 A4).
Qed.

Lemma item_no_comma it ts : item_code it ts -> ~ In (sym ",") ts.
Proof. intros [] Hin; cbn in Hin; intuition discriminate. Qed.

Definition coded (it : item) (ts : list tt) : Prop := it = ISpread ts \/ item_code it ts.
Lemma coded_fun it ts us : coded it ts -> coded it us -> ts = us.
Proof.
  intros [-> |H] [K|K]; [congruence|inversion K|subst; inversion H|eapply item_fun; eassumption].
Qed.

Lemma entry_fun a ts us : entry_code a ts -> entry_code a us -> ts = us.
Proof.
  intros H K. destruct (entry_has_item _ _ H) as (it & Hi).
  eapply coded_fun; [eapply entry_item; [exact Hi|exact H]|eapply entry_item; [exact Hi|exact K]].
Qed.

Lemma entries_items l codes : Forall2 entry_code l codes ->
  exists its, Forall2 attr_item l its /\ Forall2 coded its codes.
Proof.
  induction 1 as [|a ts l codes Ha Hl IH]; [exists []; split; constructor|].
  destruct IH as (its & H1 & H2). destruct (entry_has_item _ _ Ha) as (it & Hi). exists (it :: its).
  split; constructor; try assumption. eapply entry_item; eassumption.
Qed.
Lemma items_entries l its codes : Forall2 entry_code l codes -> Forall2 attr_item l its -> Forall2 coded its codes.
Proof.
  intros H. revert its. induction H as [|a ts l codes Ha Hl IH]; intros its Hi; inversion Hi; subst; constructor.
  - eapply entry_item; eassumption.
  - now apply IH.
Qed.

Lemma selector_items sels :
  Forall2 item_code (map class_item (classes_of sels) ++ id_items (ids_of sels)) (selector_entries sels).
Proof.
  unfold selector_entries. apply Forall2_app.
  - induction (classes_of sels) as [|k l IH]; constructor; [|exact IH].
    unfold class_item, class_entry. constructor; [now left|constructor].
  - unfold id_items, id_entries. destruct (ids_of sels) as [|k l]; constructor; [|constructor].
    constructor; [constructor|]. cbn. intuition discriminate.
Qed.

Lemma forall2_weaken {A B} (R S : A -> B -> Prop) l m : (forall a b, R a b -> S a b) -> Forall2 R l m -> Forall2 S l m.
Proof. intros H. induction 1; constructor; auto. Qed.
Lemma forall2_fun {A B} (R : A -> B -> Prop) l m n :
  (forall a b c, R a b -> R a c -> b = c) -> Forall2 R l m -> Forall2 R l n -> m = n.
Proof.
  intros H Hl. revert n. induction Hl as [|a b l m Ha Hl IH]; intros n Hn; inversion Hn; subst; [reflexivity|].
  f_equal; eauto.
Qed.
Lemma forall2_inj {A B} (R : A -> B -> Prop) l m n :
  (forall a b c, R a c -> R b c -> a = b) -> Forall2 R l n -> Forall2 R m n -> l = m.
Proof.
  intros H Hl. revert m. induction Hl as [|a b l m Ha Hl IH]; intros n Hn; inversion Hn; subst; [reflexivity|].
  f_equal; eauto.
Qed.

Lemma no_spread_entries attrs ts : spreads_of attrs = [] -> ~ In (ASpread ts) (entries_of attrs).
Proof.
  induction attrs as [|[a|d|s] l IH]; cbn; intros H Hi.
  - exact Hi.
  - now apply IH.
  - destruct (is_clone d); [now apply IH|]. destruct Hi as [Hi|Hi]; [discriminate|now apply IH].
  - discriminate.
Qed.

Lemma items_of_code sels attrs l : spreads_of attrs = [] -> Forall2 entry_code (entries_of attrs) l ->
  exists its, items sels attrs its /\ Forall2 item_code its (selector_entries sels ++ l).
Proof.
  intros Hs Hl. destruct (entries_items _ _ Hl) as (its & H1 & H2).
  exists (map class_item (classes_of sels) ++ id_items (ids_of sels) ++ its). split; [now constructor|].
  rewrite app_assoc. apply Forall2_app; [apply selector_items|].
  assert (A : forall ts, ~ In (ASpread ts) (entries_of attrs)) by (intros ts; now apply no_spread_entries).
  revert A H2. clear -H1. revert l. induction H1 as [|a it l its Ha Hl IH]; intros codes A H2; inversion H2; subst; constructor.
  - destruct H1 as [-> |H1]; [|assumption]. inversion Ha; subst. exfalso. eapply A. now left.
  - apply IH; [|assumption]. intros ts Hi. eapply A. right. exact Hi.
Qed.

Lemma items_inj sels attrs l sels' attrs' l' :
  Forall2 entry_code (entries_of attrs) l -> Forall2 entry_code (entries_of attrs') l' ->
  comma_ended (selector_entries sels ++ l) = comma_ended (selector_entries sels' ++ l') ->
  equal_items sels attrs sels' attrs'.
Proof.
  intros Hl Hl' H.
  assert (A : (spreads_of attrs <> [] \/ spreads_of attrs' <> []) \/ (spreads_of attrs = [] /\ spreads_of attrs' = [])).
  { destruct (spreads_of attrs), (spreads_of attrs'); [now right|left; right; discriminate|left; left; discriminate|left; left; discriminate]. }
  destruct A as [A|[A1 A2]].
  - right. split; [exact A|]. eexists. split; [exists l; eauto|exists l'; eauto].
  - left. destruct (items_of_code sels _ _ A1 Hl) as (its & H1 & H2). destruct (items_of_code sels' _ _ A2 Hl') as (its' & H3 & H4).
    apply comma_ended_inj in H.
    + rewrite H in H2. rewrite (forall2_inj _ _ _ _ item_inj H2 H4) in H1. now exists its'.
    + clear -H2. induction H2; constructor; try assumption. eapply item_no_comma; eassumption.
    + clear -H4. induction H4; constructor; try assumption. eapply item_no_comma; eassumption.
Qed.

Lemma items_same sels attrs l sels' attrs' l' :
  Forall2 entry_code (entries_of attrs) l -> Forall2 entry_code (entries_of attrs') l' ->
  equal_items sels attrs sels' attrs' ->
  comma_ended (selector_entries sels ++ l) = comma_ended (selector_entries sels' ++ l').
Proof.
  intros Hl Hl' [(its & H1 & H2)|(_ & ts & (m & Hm & ->) & (m' & Hm' & E))].
  - f_equal.
    assert (B : forall s a its c, items s a its -> Forall2 entry_code (entries_of a) c ->
                  Forall2 coded its (selector_entries s ++ c)).
    { intros s a its0 c [s' a' i' Hi] Hc. rewrite app_assoc. apply Forall2_app; [|eapply items_entries; eassumption].
      eapply forall2_weaken; [|apply selector_items]. intros x y Hx. now right. }
    eapply (forall2_fun coded); [apply coded_fun|eapply B; eassumption|eapply B; eassumption].
  - rewrite (forall2_fun _ _ _ _ entry_fun Hl Hm), (forall2_fun _ _ _ _ entry_fun Hl' Hm'). exact E.
Qed.
