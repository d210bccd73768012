(** Theorems C08-C13: what the expansion of an accepted
    input looks like.  Most speak about every element [e] that is [used] in the
    tree of an accepted input, and about a piece of [code] within the output. *)
From Verif Require Import PropFacts1 CodeFacts ElementFacts Inv Fuel ExampleFacts.
From Verif Require Import SpecStr SpecGrammar SpecOut SpecRead.
From Coq Require Import Lia.
Open Scope list_scope.

(** [input] reads as [cs] and expands to [out]. *)
Definition expands (E : env) (input : list tt) (cs : list child) (out : list tt) : Prop :=
  env_ok E /\ wf input /\ children_phrase E input cs /\ mview E input = Expanded out.
(** [input] reads as [cs] but is not expanded (there are errors or a panic). *)
Definition not_expanded (E : env) (input : list tt) (cs : list child) : Prop :=
  env_ok E -> wf input -> children_phrase E input cs -> forall out, mview E input <> Expanded out.

Lemma expands_root E input cs out : expands E input cs out -> root_code cs out.
Proof.
  intros (HE & Hw & Hc & H). destruct (mview_sound E input out HE Hw H) as (cs' & Hc' & Hr).
  assert (Hn := Nat.lt_succ_diag_r (size input)).
  assert (H1 : parse_children E (S (size input)) on input >> cs, []) by (apply parse_children_ok; auto).
  assert (H2 : parse_children E (S (size input)) on input >> cs', []) by (apply parse_children_ok; auto).
  rewrite H1 in H2. inversion H2; subst. exact Hr.
Qed.
Lemma expands_used E input cs out b e : expands E input cs out -> used cs b e ->
  exists code, code_of b e code /\ within code out.
Proof. intros H. apply used_code. eapply expands_root; eauto. Qed.
Lemma no_code_not_expanded E input cs b e : checked cs b e -> (forall code, ~ code_of b e code) ->
  not_expanded E input cs.
Proof.
  intros Hc Hn HE Hw Hp out H. destruct (checked_code cs out b e) as (code & Hcode); auto.
  - apply (expands_root E input). split; auto.
  - now destruct (Hn code).
Qed.

(** ** A sample: an HTML element, a component with slots, a custom element *)

Definition sample : list tt := lex
  "section.c1 #i1 .c2 a={1} class:x-y={c} {..s} data-n='d' prop:v={w} on:click:undelegated={f} ref={r} use:g
     { 'text' My<T>.k #i2 #i3 p-q={2} class:m clone:z {..t} |arg| { slot:One { 'in' } 'kid' slot:Two; slot:One j={3}; } [b] my-tag q; }".
Definition tree_of (input : list tt) : list child :=
  match p_out (parse_children E0 (S (size input)) input) with Ret cs => cs | _ => [] end.
Definition out_of (input : list tt) : list tt := match mview E0 input with Expanded out => out | _ => [] end.
Lemma case_expands input : wfb input = true ->
  parse_children E0 (S (size input)) input = PR (Ret (tree_of input)) [] [] ->
  mview E0 input = Expanded (out_of input) -> expands E0 input (tree_of input) (out_of input).
Proof.
  intros Hw Hp Hm. apply wfb_ok in Hw. split; [apply E0_ok|]. split; [exact Hw|]. split; [|exact Hm].
  eapply (parse_children_ok E0 E0_ok (S (size input))) in Hp; [|exact Hw|lia]. apply Hp.
Qed.

Definition sample_cs : list child := Eval vm_compute in tree_of sample.
Definition sample_out : list tt := Eval vm_compute in out_of sample.
Definition sample_html : element :=
  match sample_cs with CElement e :: _ => e | _ => Element (TagHtml (Id false "")) [] [] None None end.
Definition sample_comp : element :=
  match child_list (el_children sample_html) with _ :: CElement e :: _ => e | _ => sample_html end.
Definition sample_slot : element :=
  match child_list (el_children sample_comp) with CSlot e :: _ => e | _ => sample_html end.

Lemma sample_expands : expands E0 sample sample_cs sample_out.
Proof.
  replace sample_cs with (tree_of sample) by (vm_compute; reflexivity).
  replace sample_out with (out_of sample) by (vm_compute; reflexivity).
  apply case_expands; vm_compute; reflexivity.
Qed.
Lemma sample_html_used : used sample_cs false sample_html.
Proof. apply used_root. vm_compute. auto. Qed.
Lemma sample_comp_used : used sample_cs false sample_comp.
Proof. apply used_child with false sample_html; [apply sample_html_used|]. vm_compute. auto. Qed.
Lemma sample_slot_used : used sample_cs true sample_slot.
Proof.
  eapply used_slot with (e := sample_comp); [apply sample_comp_used|vm_compute; reflexivity|]. vm_compute. auto.
Qed.
Lemma sample_comp_tag : exists p, el_tag sample_comp = TagComponent p.
Proof. vm_compute. eauto. Qed.
Lemma sample_html_tag : not_component (el_tag sample_html).
Proof. vm_compute. discriminate. Qed.

(** ** C08: HTML children *)

Theorem C08_html_children E input cs out t sels attrs args ch :
  expands E input cs out -> used cs false (Element t sels attrs args ch) -> not_component t ->
  exists code others codes,
    within code out /\
    calls_in code = others ++ map child_call codes /\
    Forall (fun c => ~ named "child" c) others /\
    Forall2 node_code (non_slots (child_list ch)) codes.
Proof.
  intros He Hu Ht. destruct (expands_used _ _ _ _ _ _ He Hu) as (code & Hc & Hw).
  apply html_code in Hc; auto. destruct Hc as (head & kvs & dirs & codes & Hh & H1 & H2 & H3 & ->).
  eexists _, (kvs ++ dirs ++ map class_call (classes_of sels) ++ map id_call (ids_of sels) ++ map spread_call (spreads_of attrs)), codes.
  split; [exact Hw|]. rewrite (calls_html _ _ _ Hh). rewrite <- !app_assoc. split; [reflexivity|]. split; auto.
  rewrite !Forall_app. repeat split; apply Forall_forall; unfold named; intros c Hc; try (apply in_map_iff in Hc; destruct Hc as (x & <- & _); discriminate).
  - destruct (forall2_in_r _ _ _ _ H1 Hc) as (a & _ & Ha). inversion Ha as [| |? ? i ? ? [_ ->]]; subst; discriminate.
  - destruct (forall2_in_r _ _ _ _ H2 Hc) as (a & _ & Ha). inversion Ha as [n ? ? ? [->| ->]| | |]; subst; discriminate.
Qed.
Print Assumptions C08_html_children.

(** The sample's [section] has four such children. *)
Example C08_case : expands E0 sample sample_cs sample_out /\ used sample_cs false sample_html /\
  not_component (el_tag sample_html) /\ List.length (non_slots (child_list (el_children sample_html))) = 4.
Proof. split; [apply sample_expands|]. split; [apply sample_html_used|]. split; [apply sample_html_tag|]. reflexivity. Qed.

(** ** C09: component children *)

(** A component used as an element or as a slot, given its builder calls. *)
Definition frame (slot : bool) (path : list tt) (calls : list call) (entries : list (list tt)) : list tt :=
  if slot then slot_frame path calls else component_frame path calls entries.

Theorem C09_component_children E input cs out b p sels attrs args ch :
  expands E input cs out -> used cs b (Element (TagComponent p) sels attrs args ch) ->
  exists path before children_part after entries codes,
    within (frame b path (before ++ children_part ++ after) entries) out /\
    Forall2 node_code (non_slots (child_list ch)) codes /\
    Forall (fun c => ~ named "children" c) (before ++ after) /\
    (non_slots (child_list ch) = [] -> children_part = []) /\
    (non_slots (child_list ch) <> [] ->
       exists block, children_part = [plain_call "children" [braces block]] /\
                     within (abs_path ["leptos"; "prelude"; "View"; "new"] ++
                             [parens [parens (comma_ended codes)]]) block).
Proof.
  intros He Hu. destruct (expands_used _ _ _ _ _ _ He Hu) as (code & Hc & Hw).
  assert (Hcc : forall clones codes, Forall2 node_code (non_slots (child_list ch)) codes ->
    (non_slots (child_list ch) = [] -> children_calls args clones codes = []) /\
    (non_slots (child_list ch) <> [] ->
       exists block, children_calls args clones codes = [plain_call "children" [braces block]] /\ within (fragment codes) block)).
  { intros clones codes Hn. split; intros Hx.
    - rewrite Hx in Hn. inversion Hn; subst. reflexivity.
    - destruct codes as [|c codes]; [inversion Hn; congruence|]. cbn [children_calls]. eexists. split; [reflexivity|].
      apply within_r. destruct args.
      + apply within_cons, within_r, within_refl.
      + apply within_r, within_in, within_cons, within_r, within_refl. }
  destruct b; cbn [code_of] in Hc.
  - apply slot_code_inv in Hc. destruct Hc as (p' & path & props & clones & codes & Hp & -> & Hen & H0 & H1 & H2 & H3 & ->).
    exists path, props, (children_calls args clones codes), [], [], codes. rewrite !app_nil_r.
    destruct (Hcc clones codes H3) as [Hc1 Hc2]. repeat split; auto. eapply props_raw; eauto.
  - apply component_code in Hc.
    destruct Hc as (path & props & entries & clones & codes & slots & scalls & Hp & H1 & H2 & H3 & H4 & H5 & H6 & ->).
    exists path, props, (children_calls args clones codes), scalls, (selector_entries sels ++ entries), codes.
    destruct (Hcc clones codes H4) as [Hc1 Hc2]. repeat split; auto.
    apply Forall_app. split; [eapply props_raw; eauto|eapply slot_calls_raw; eauto].
Qed.
Print Assumptions C09_component_children.

Example C09_case : expands E0 sample sample_cs sample_out /\
  used sample_cs false sample_comp /\ (exists p, el_tag sample_comp = TagComponent p) /\
  List.length (non_slots (child_list (el_children sample_comp))) = 1 /\
  used sample_cs true sample_slot /\ (exists p, el_tag sample_slot = TagComponent p).
Proof.
  split; [apply sample_expands|]. split; [apply sample_comp_used|]. split; [apply sample_comp_tag|]. split; [reflexivity|].
  split; [apply sample_slot_used|]. vm_compute. eauto.
Qed.

(** ** C10: the root *)

Theorem C10_root E input cs out : expands E input cs out ->
  exists codes body, Forall2 node_code cs codes /\
    out = [braces ([sym "#"; brackets [word "allow"; parens [word "unused_braces"]]] ++ body)] /\
    (List.length cs = 1 -> codes = [body]) /\
    (List.length cs <> 1 -> body = abs_path ["leptos"; "prelude"; "View"; "new"] ++
                                   [parens [parens (comma_ended codes)]]).
Proof.
  intros He. apply expands_root in He. inversion He as [c code Hs Hn|cs' codes Hl Hs Hn]; subst.
  - apply nodes_each in Hn. exists [code], code. split.
    + destruct c as [v|e|e]; auto. now destruct (Hs e).
    + repeat split; auto. cbn. lia.
  - apply nodes_each in Hn. exists codes, (fragment codes). split.
    + replace cs with (non_slots cs); auto. clear -Hs. induction cs as [|[v|e|e] cs IH]; cbn; auto.
      * f_equal. apply IH. intros e H. apply (Hs e). now right.
      * f_equal. apply IH. intros e' H. apply (Hs e'). now right.
      * destruct (Hs e). now left.
    + repeat split; auto. lia.
Qed.
Print Assumptions C10_root.

Example C10_none : mview E0 [] = Expanded [braces ([sym "#"; brackets [word "allow"; parens [word "unused_braces"]]]
  ++ abs_path ["leptos"; "prelude"; "View"; "new"] ++ [parens [parens []]])].
Proof. vm_compute. reflexivity. Qed.
Example C10_case : expands E0 sample sample_cs sample_out /\ List.length sample_cs = 1.
Proof. split; [apply sample_expands|reflexivity]. Qed.
Example C10_three : let i := lex "'a' p; {b}" in expands E0 i (tree_of i) (out_of i) /\ List.length (tree_of i) = 3.
Proof. split; [apply case_expands; vm_compute; reflexivity|reflexivity]. Qed.

(** ** C11: order of the calls of an HTML element *)

Theorem C11_html_call_order E input cs out t sels attrs args ch :
  expands E input cs out -> used cs false (Element t sels attrs args ch) -> not_component t ->
  exists code kvs dirs codes,
    within code out /\
    calls_in code = kvs ++ dirs ++ map class_call (classes_of sels) ++ map id_call (ids_of sels)
                    ++ map spread_call (spreads_of attrs) ++ map child_call codes /\
    Forall2 (html_attr_call (kind_of t)) (kvs_of attrs) kvs /\
    Forall2 html_dir_call (dirs_of attrs) dirs /\
    Forall2 node_code (non_slots (child_list ch)) codes.
Proof.
  intros He Hu Ht. destruct (expands_used _ _ _ _ _ _ He Hu) as (code & Hc & Hw).
  apply html_code in Hc; auto. destruct Hc as (head & kvs & dirs & codes & Hh & H1 & H2 & H3 & ->).
  eexists _, kvs, dirs, codes. split; [exact Hw|]. rewrite (calls_html _ _ _ Hh). auto.
Qed.
Print Assumptions C11_html_call_order.

(** Only the order within each kind matters: any interleaving of the same
    attributes and selectors gives the same code. *)
Theorem C11_interleaving_irrelevant E at_ t sels sels' attrs attrs' args args' ch out :
  env_ok E -> not_component t ->
  kvs_of attrs = kvs_of attrs' -> dirs_of attrs = dirs_of attrs' -> spreads_of attrs = spreads_of attrs' ->
  classes_of sels = classes_of sels' -> ids_of sels = ids_of sels' ->
  expand_element E at_ false (Element t sels attrs args ch) = XR (XRet out) [] ->
  expand_element E at_ false (Element t sels' attrs' args' ch) = XR (XRet out) [].
Proof.
  intros HE Ht Hk Hd Hs Hc Hi. rewrite !expand_element_eq. unfold element_tokens.
  destruct (xml_to_tokens t sels attrs (option_map (expand_nodes E at_ 0) ch)) as [x|] eqn:H1.
  2: { destruct t; try discriminate; now destruct (Ht p). }
  destruct (xml_to_tokens t sels' attrs' (option_map (expand_nodes E at_ 0) ch)) as [x'|] eqn:H2.
  2: { destruct t; try discriminate; now destruct (Ht p). }
  intros H. apply (xml_ok _ _ _ _ _ _ H1) in H. apply (xml_ok _ _ _ _ _ _ H2).
  rewrite Hk, Hd, Hs, Hc, Hi in H. exact H.
Qed.
Print Assumptions C11_interleaving_irrelevant.

Example C11_case :
  let a := el_attrs sample_html in
  expands E0 sample sample_cs sample_out /\ used sample_cs false sample_html /\
  List.length (kvs_of a) = 3 /\ List.length (dirs_of a) = 4 /\ List.length (spreads_of a) = 1 /\
  exists attrs', attrs' <> a /\ kvs_of attrs' = kvs_of a /\ dirs_of attrs' = dirs_of a /\ spreads_of attrs' = spreads_of a.
Proof.
  split; [apply sample_expands|]. split; [apply sample_html_used|]. repeat (split; [reflexivity|]).
  exists (map AKv (kvs_of (el_attrs sample_html)) ++ map ASpread (spreads_of (el_attrs sample_html)) ++ map ADir (dirs_of (el_attrs sample_html))).
  split; [vm_compute; discriminate|]. repeat split.
Qed.

(** ** C12: HTML attribute routing *)

(** Every [key=value] of an HTML element is one call, chosen by key and kind. *)
Theorem C12_html_attribute_routing E input cs out t sels attrs args ch a :
  expands E input cs out -> used cs false (Element t sels attrs args ch) -> not_component t ->
  In (AKv a) attrs ->
  let key := k_repr (kv_key a) in
  let unchecked := kind_of t = KSvg \/ kind_of t = KWeb \/ custom_name key in
  exists code v c,
    within code out /\ In c (calls_in code) /\ value_code (kv_value a) v /\
    (key = "ref" -> c = Call (Id false "node_ref") v) /\
    (key = "class" \/ key = "style" -> c = Call (Id true key) v) /\
    (key <> "ref" -> key <> "class" -> key <> "style" -> unchecked ->
       c = Call (Id false "attr")
             (str key :: sym "," ::
              abs_path ["leptos"; "prelude"; "IntoAttributeValue"; "into_attribute_value"] ++ [parens v])) /\
    (key <> "ref" -> ~ unchecked -> c = Call (Id true (snake_name key)) v).
Proof.
  intros He Hu Ht Ha key unchecked. destruct (expands_used _ _ _ _ _ _ He Hu) as (code & Hc & Hw).
  apply html_code in Hc; auto. destruct Hc as (head & kvs & dirs & codes & Hh & H1 & H2 & H3 & ->).
  apply kvs_of_in in Ha. destruct (forall2_in_l _ _ _ _ H1 Ha) as (c & Hc & Hr).
  assert (Hin : In c (calls_in (head ++ chain (kvs ++ dirs ++ map class_call (classes_of sels) ++ map id_call (ids_of sels)
                    ++ map spread_call (spreads_of attrs) ++ map child_call codes)))).
  { rewrite (calls_html _ _ _ Hh). apply in_or_app. now left. }
  inversion Hr as [? v Hk Hv|? v Hk1 Hk2 Hk3 Hk4 Hv|? v i Hk1 Hk2 Hi Hv]; subst; unfold unchecked, key in *; clear unchecked key;
    [ exists (head ++ chain (kvs ++ dirs ++ map class_call (classes_of sels) ++ map id_call (ids_of sels)
                    ++ map spread_call (spreads_of attrs) ++ map child_call codes)), v;
      eexists; (split; [exact Hw|]); (split; [exact Hin|]); (split; [exact Hv|]); repeat split; intros; auto ..].
  - destruct H; rewrite Hk in H; discriminate.
  - congruence.
  - congruence.
  - congruence.
  - destruct H; congruence.
  - tauto.
  - congruence.
  - destruct Hi as [_ ->]. f_equal. f_equal. destruct H as [H|H]; rewrite H; reflexivity.
  - tauto.
  - destruct Hi as [_ ->]. reflexivity.
Qed.
Print Assumptions C12_html_attribute_routing.

Example C12_case : expands E0 sample sample_cs sample_out /\ used sample_cs false sample_html /\
  not_component (el_tag sample_html) /\
  map (fun a => k_repr (kv_key a)) (kvs_of (el_attrs sample_html)) = ["a"; "data-n"; "ref"] /\
  custom_name "data-n" /\ ~ custom_name "aria-label" /\ ~ custom_name "a".
Proof.
  split; [apply sample_expands|]. split; [apply sample_html_used|]. split; [apply sample_html_tag|]. split; [reflexivity|].
  split; [|split].
  - split; [vm_compute; auto 10|]. intros [r H]. discriminate.
  - intros [_ H]. apply H. now exists "label".
  - intros [H _]. vm_compute in H. intuition discriminate.
Qed.

(** ** C13: component props *)

Theorem C13_component_props E input cs out b p sels attrs args ch :
  expands E input cs out -> used cs b (Element (TagComponent p) sels attrs args ch) ->
  exists path props rest entries values,
    within (frame b path (props ++ rest) entries) out /\
    Forall2 (fun a v => value_code (kv_value a) v) (kvs_of attrs) values /\
    map call_name props = map (fun a => Id true (snake_name (k_repr (kv_key a)))) (kvs_of attrs) /\
    map call_args props = values.
Proof.
  intros He Hu. destruct (expands_used _ _ _ _ _ _ He Hu) as (code & Hc & Hw).
  assert (Hp : exists path props rest entries, Forall2 prop_call (kvs_of attrs) props /\ code = frame b path (props ++ rest) entries).
  { destruct b; cbn [code_of] in Hc.
    - apply slot_code_inv in Hc. destruct Hc as (p' & path & props & clones & codes & Hp & -> & Hen & H0 & H1 & H2 & H3 & ->).
      exists path, props, (children_calls args clones codes), []. auto.
    - apply component_code in Hc.
      destruct Hc as (path & props & entries & clones & codes & slots & scalls & Hp & H1 & H2 & H3 & H4 & H5 & H6 & ->).
      exists path, props, (children_calls args clones codes ++ scalls), (selector_entries sels ++ entries). auto. }
  destruct Hp as (path & props & rest & entries & Hp & ->).
  exists path, props, rest, entries, (map call_args props). split; [exact Hw|]. clear -Hp.
  induction Hp as [|a c l cs [? i v [_ ->] Hv] Hp (IH1 & IH2 & _)]; cbn; auto.
  split; [constructor; auto|]. split; auto. f_equal. exact IH2.
Qed.
Print Assumptions C13_component_props.

Example C13_case : expands E0 sample sample_cs sample_out /\ used sample_cs false sample_comp /\
  (exists p, el_tag sample_comp = TagComponent p) /\
  map (fun a => k_repr (kv_key a)) (kvs_of (el_attrs sample_comp)) = ["p-q"] /\ snake_name "p-q" = "p_q".
Proof.
  split; [apply sample_expands|]. split; [apply sample_comp_used|]. split; [apply sample_comp_tag|]. split; reflexivity.
Qed.
