(** Theorems C17, C23-C26: values, directives and selectors, and what is
    reported about them. *)
From Verif Require Import PropFacts1 CodeFacts ElementFacts Inv Fuel ExampleFacts.
From Verif Require Import TreeInv PhraseInv Report Properties2.
From Verif Require Import SpecStr SpecGrammar SpecOut SpecRead.
From Coq Require Import Lia.
Open Scope list_scope.
Open Scope expand_scope.

(** ** What a directive reports *)

Lemma html_dir_reports E input cs e d x : env_ok E -> built E input cs -> no_root_slot cs ->
  reached cs false e -> not_component (el_tag e) -> In (ADir d) (el_attrs e) ->
  (forall ts ds, xml_directive_tokens d = XR (XRet ts) ds -> In x ds) -> reports E input x.
Proof.
  intros HE Hb Hs Hr Ht Hd Hx. eapply reported_below; eauto. intros at_ ts ds H. apply element_inv in H.
  destruct H as (_ & _ & _ & H & _). destruct (H eq_refl Ht) as (a & d1 & d2 & Hl & Hi).
  apply html_loop_inv in Hl. destruct (proj2 Hl d Hd) as (ts' & d' & H' & Hi'). apply Hi, Hi'. eauto.
Qed.
Lemma comp_dir_reports E input cs b e p d x : env_ok E -> built E input cs -> no_root_slot cs ->
  reached cs b e -> el_tag e = TagComponent p -> In (ADir d) (el_attrs e) ->
  (forall acc y ds, component_attr_loop b (el_attrs e) acc = XR (XRet y) ds -> In x ds) -> reports E input x.
Proof.
  intros HE Hb Hs Hr Ht Hd Hx. eapply reported_below; eauto. intros at_ ts ds H. apply element_inv in H.
  destruct H as (_ & _ & _ & _ & H & _). destruct (H p Ht) as (a & d1 & d2 & Hl & Hi). apply Hi. eauto.
Qed.

(** ** C17: embedded code *)

(** How a value is written and how it comes out. *)
Inductive verbatim : value -> list tt -> Prop :=
| vb_literal k s : verbatim (VLit (LitTok k s)) [TLit k s]
| vb_bool b : verbatim (VLit (LitBool b)) [TIdent (Id false (if b then "true" else "false"))]
| vb_block ts : verbatim (VBlock ts) [TGroup Brace ts]
| vb_closure ts : verbatim (VBracket None ts)
    [TIdent (Id false "move"); TPunct "|" Joint; TPunct "|" Alone; TGroup Brace ts]
| vb_format ts : verbatim (VBracket (Some (Id false "f")) ts)
    [TIdent (Id false "move"); TPunct "|" Joint; TPunct "|" Alone;
     TPunct ":" Joint; TPunct ":" Alone; TIdent (Id false "std");
     TPunct ":" Joint; TPunct ":" Alone; TIdent (Id false "format"); TPunct "!" Alone; TGroup Paren ts].
Lemma verbatim_code v ts : value_code v ts -> verbatim v ts.
Proof. intros []; constructor || apply (vb_bool true) || apply (vb_bool false). Qed.

Lemma value_in_code b e v code : code_of b e code -> value_in e v -> exists ts, value_code v ts /\ within ts code.
Proof.
  intros Hc Hv. destruct e as [t sels attrs args ch].
  assert (Hopt : forall d v ts, d_value d = Some v -> opt_value_code (d_value d) ts -> value_code v ts).
  { intros d0 v0 ts0 -> H. now inversion H. }
  assert (Hin1 : forall a b c x : list tt, within x b -> within x (a ++ b ++ c)) by (intros; now apply within_r, within_l).
  assert (Hnode : forall l codes, Forall2 node_code (non_slots l) codes -> In (CValue v) l ->
    exists ts, value_code v ts /\ In (rendered ts) codes).
  { intros l codes Hn Hin. assert (Hin' : In (CValue v) (non_slots l)).
    { clear -Hin. induction l as [|c l IH]; [destruct Hin|]. destruct Hin as [->|Hin]; [now left|]. destruct c; cbn; auto; right; auto. }
    destruct (forall2_in_l _ _ _ _ Hn Hin') as (c & Hc' & Hn'). inversion Hn'; subst. eauto. }
  destruct (match t with TagComponent p => Some p | _ => None end) as [p|] eqn:Ht.
  - destruct t; try discriminate. inversion Ht; subst p0. clear Ht.
    assert (Hcc : exists props entries clones codes, Forall2 prop_call (kvs_of attrs) props /\ Forall2 entry_code (entries_of attrs) entries /\
       Forall2 clone_code (clones_of attrs) clones /\ Forall2 node_code (non_slots (child_list ch)) codes /\
       (forall x c, In c props -> within x (call_args c) -> within x code) /\
       (forall x c, In c entries -> within x c -> within x code) /\
       (forall x c, In c codes -> within x c -> within x code)).
    { destruct b; cbn [code_of] in Hc.
      - apply slot_code_inv in Hc. destruct Hc as (p' & path & props & clones & codes & Hp & -> & Hen & H0 & H1 & H2 & H3 & ->).
        exists props, [], clones, codes. rewrite Hen. repeat split; auto; intros x c Hin Hw; [|destruct Hin|].
        + apply within_slot, within_calls_l. eapply within_chain; eauto.
        + apply within_slot, within_calls_r. eapply within_children; eauto.
      - apply component_code in Hc.
        destruct Hc as (path & props & entries & clones & codes & slots & scalls & Hp & H1 & H2 & H3 & H4 & H5 & H6 & ->).
        exists props, entries, clones, codes. repeat split; auto; intros x c Hin Hw.
        + apply within_component, within_calls_l. eapply within_chain; eauto.
        + unfold component_frame. apply within_r, within_r, within_in, within_r, within_r. apply within_chain with (c := plain_call "add_any_attr" [parens (comma_ended (selector_entries sels ++ entries))]); [|now left].
          cbn [call_args plain_call]. apply within_in. eapply within_comma_ended; eauto. apply in_or_app. now right.
        + apply within_component, within_calls_r, within_calls_l. eapply within_children; eauto. }
    destruct Hcc as (props & entries & clones & codes & H1 & H2 & H3 & H4 & W1 & W2 & W3).
    inversion Hv as [a Ha|d v0 Hd Hdv|v0 Hch]; subst; cbn [el_attrs el_children] in *.
    + apply kvs_of_in in Ha. destruct (forall2_in_l _ _ _ _ H1 Ha) as (c & Hc' & Hpc).
      inversion Hpc as [a' i v0 Hi Hv0]; subst. exists v0. split; auto. eapply W1; eauto. cbn. apply within_refl.
    + assert (Hd' : In d (clones_of attrs) \/ In (ADir d) (entries_of attrs)).
      { unfold clones_of. clear -Hd. induction attrs as [|a l IH]; [destruct Hd|]. destruct Hd as [->|Hd].
        - cbn [entries_of dirs_of filter]. destruct (is_clone d); [left|right]; now left.
        - destruct (IH Hd) as [H|H]; destruct a as [a|d'|s]; cbn [entries_of dirs_of filter]; auto.
          + left. destruct (is_clone d'); auto. now right.
          + right. destruct (is_clone d'); auto. now right.
          + right. now right. }
      destruct Hd' as [Hd'|Hd'].
      * destruct (forall2_in_l _ _ _ _ H3 Hd') as (c & Hc' & Hcl). inversion Hcl; subst. discriminate.
      * destruct (forall2_in_l _ _ _ _ H2 Hd') as (c & Hc' & He).
        assert (Hg : exists ts, value_code v ts /\ within ts c).
        { inversion He; subst; cbn [d_value] in Hdv; subst;
            try match goal with H : value_or_true_code (Some _) _ |- _ => inversion H; subst; clear H end;
            try match goal with H : opt_value_code (Some _) _ |- _ => inversion H; subst; clear H end;
            try match goal with H : use_code _ (Some _) _ |- _ => inversion H; subst; clear H end;
            eexists; (split; [eassumption|]);
            repeat first [apply within_refl | apply within_r; apply within_in | apply within_in | apply within_cons | apply within_r]. }
        destruct Hg as (ts & Hg & Hw). exists ts. split; auto. eapply W2; eauto.
    + destruct (Hnode _ _ H4 Hch) as (ts & Hts & Hin). exists ts. split; auto. eapply W3; eauto.
      apply within_rendered, within_refl.
  - assert (Hnc : not_component t) by (intros p ->; discriminate).
    destruct b; cbn [code_of] in Hc.
    { apply slot_code_inv in Hc. destruct Hc as (p' & ? & ? & ? & ? & Hp & _). now destruct (Hnc p'). }
    apply html_code in Hc; auto. destruct Hc as (head & kvs & dirs & codes & Hh & H1 & H2 & H3 & ->).
    inversion Hv as [a Ha|d v0 Hd Hdv|v0 Hch]; subst; cbn [el_attrs el_children] in *.
    + apply kvs_of_in in Ha. destruct (forall2_in_l _ _ _ _ H1 Ha) as (c & Hc' & Hr).
      assert (Hg : exists ts, value_code (kv_value a) ts /\ within ts (call_args c)).
      { inversion Hr; subst; eexists; (split; [eassumption|]); cbn [call_args plain_call]; try apply within_refl.
        do 2 apply within_cons. apply within_r, within_in, within_refl. }
      destruct Hg as (ts & Hg & Hw). exists ts. split; auto. apply within_r, within_calls_l. eapply within_chain; eauto.
    + apply dirs_of_in in Hd. destruct (forall2_in_l _ _ _ _ H2 Hd) as (c & Hc' & Hr).
      assert (Hg : exists ts, value_code v ts /\ within ts (call_args c)).
      { inversion Hr; subst; cbn [d_value] in Hdv; subst;
          try match goal with H : opt_value_code (Some _) _ |- _ => inversion H; subst; clear H end;
          try match goal with H : use_code _ (Some _) _ |- _ => inversion H; subst; clear H end;
          eexists; (split; [eassumption|]); cbn [call_args plain_call].
        - apply within_in. do 2 apply within_cons. apply within_refl.
        - do 2 apply within_cons. apply within_refl.
        - apply within_r, within_cons, within_refl.
        - do 2 apply within_cons. apply within_r, within_in, within_refl. }
      destruct Hg as (ts & Hg & Hw). exists ts. split; auto. apply within_r, within_calls_r, within_calls_l. eapply within_chain; eauto.
    + destruct (Hnode _ _ H3 Hch) as (ts & Hts & Hin). exists ts. split; auto.
      apply within_r. do 5 apply within_calls_r. apply within_chain with (c := child_call (rendered ts)); [|now apply in_map].
      cbn. apply within_rendered, within_refl.
Qed.
Lemma root_value_code cs out v : root_code cs out -> In (CValue v) cs -> exists ts, value_code v ts /\ within ts out.
Proof.
  intros Hr Hin. assert (Hnode : forall l codes, nodes_code l codes -> In (CValue v) l ->
    exists ts, value_code v ts /\ In (rendered ts) codes).
  { intros l codes Hn. induction Hn; intros Hi; [destruct Hi|..].
    - destruct Hi as [Hi|Hi]; [inversion Hi; subst; eexists; split; [eassumption|now left]|].
      destruct IHHn as (ts' & ? & ?); auto. exists ts'. split; auto. now right.
    - destruct Hi as [Hi|Hi]; [discriminate|]. destruct IHHn as (ts' & ? & ?); auto. exists ts'. split; auto. now right.
    - destruct Hi as [Hi|Hi]; [discriminate|]. auto. }
  inversion Hr as [c code Hs Hn|cs' codes Hl Hs Hn]; subst; destruct (Hnode _ _ Hn Hin) as (ts & Hts & Hi);
    exists ts; (split; [exact Hts|]); apply within_root.
  - destruct Hi as [->|[]]. apply within_rendered, within_refl.
  - eapply within_fragment; eauto. apply within_rendered, within_refl.
Qed.

(** Every value of an accepted input comes out verbatim.  (Where it comes out is
    the subject of C08-C13, C23 and C24.) *)
Theorem C17_embedded_code E input cs out v :
  expands E input cs out ->
  (In (CValue v) cs \/ exists b e, used cs b e /\ value_in e v) ->
  exists ts, verbatim v ts /\ within ts out.
Proof.
  intros He [Hv|(b & e & Hu & Hv)].
  - destruct (root_value_code _ _ _ (expands_root _ _ _ _ He) Hv) as (ts & H1 & H2). exists ts. split; auto. now apply verbatim_code.
  - destruct (expands_used _ _ _ _ _ _ He Hu) as (code & Hc & Hw). destruct (value_in_code _ _ _ _ Hc Hv) as (ts & H1 & H2).
    exists ts. split; [now apply verbatim_code|]. eapply within_trans; eauto.
Qed.
Print Assumptions C17_embedded_code.

(** How a value is written in the source: as it is; as [{key}], which stands for
    the variable [key]; or as a bare attribute, which stands for [true]. *)
Inductive written : value -> list tt -> Prop :=
| wr_literal k s : written (VLit (LitTok k s)) [TLit k s]
| wr_negative k s sp : k = LkInt \/ k = LkFloat -> written (VLit (LitTok k ("-" ++ s))) [TPunct "-" sp; TLit k s]
| wr_bool b : written (VLit (LitBool b)) [TIdent (Id false (if b then "true" else "false"))]
| wr_block ts : written (VBlock ts) [TGroup Brace ts]
| wr_closure ts : written (VBracket None ts) [TGroup Bracket ts]
| wr_prefixed i ts : written (VBracket (Some i) ts) [TIdent i; TGroup Bracket ts]
| wr_shorthand inner : name_phrase inner ->
    written (VBlock [TIdent (Id true (snake_name (name_text inner)))]) [TGroup Brace inner]
| wr_bare : written (VLit (LitBool true)) [].
Definition value_source (input : list tt) (v : value) : Prop := exists ts, written v ts /\ within ts input.
Definition attr_source (input : list tt) (a : attr) : Prop :=
  match a with
  | AKv a => value_source input (kv_value a)
  | ADir d => forall v, d_value d = Some v -> value_source input v
  | ASpread ts => exists sp, within [TGroup Brace (TPunct "." Joint :: TPunct "." sp :: ts)] input
  end.
Definition args_source (input : list tt) (ts : list tt) : Prop :=
  exists sp args sp', ts = TPunct "|" Alone :: args ++ [TPunct "|" Alone] /\
    within (TPunct "|" sp :: args ++ [TPunct "|" sp']) input.

Lemma within_part a x b input : within (a ++ x ++ b) input -> within x input.
Proof. apply within_trans, within_r, within_l, within_refl. Qed.
Lemma within_inner d inner ts input : In (TGroup d inner) ts -> within ts input -> within inner input.
Proof.
  intros Hin. apply within_trans. apply in_split in Hin. destruct Hin as (a & b & ->). apply within_r, within_in, within_refl.
Qed.
Lemma phrase_written ts v f : value_phrase ts v f -> written v ts.
Proof. intros []; try constructor; auto; apply (wr_bool true) || apply (wr_bool false). Qed.

(** Every value, spread and closure argument list in the tree of an accepted
    input is written verbatim in that input. *)
Theorem C17_from_the_source E input cs : children_phrase E input cs ->
  Forall (tree (fun _ => True) (fun _ => True) (attr_source input) (args_source input) (value_source input)) cs.
Proof.
  apply (phrase_tree _ _ _ _ _ E (fun ts => within ts input)) with (n := S (size input)); auto.
  - intros a x b. apply within_part.
  - intros d inner ts. apply within_inner.
  - intros ts a f HL H. assert (Hval : forall pre ts' v f, within (pre ++ ts') input -> opt_value ts' v f ->
      forall v', v = Some v' -> value_source input v').
    { intros pre ts' v f' HL' Hv v' ->. inversion Hv; subst. exists ts0. split; [eapply phrase_written; eauto|].
      apply (within_part (pre ++ [TPunct "=" sp]) ts0 []). rewrite app_nil_r, <- app_assoc. exact HL'. }
    assert (Hsh : forall pre ks post k v, within (pre ++ ks ++ post) input -> shorthand ks k v -> value_source input v).
    { intros pre ks post k v HL' Hsh. inversion Hsh as [inner k' i (Hp & _ & _ & Hk) Hi]; subst. exists [TGroup Brace inner].
      split; [|eapply within_part; eauto]. destruct Hi as [_ ->]. now constructor. }
    destruct H as [ts k ts' v follow Hn Hv Hd|ts k v follow Hs|sp ts follow|i sp ks k ms m vs v follow Hk Hm Hv|i sp ks k v ms m follow Hs Hm]; cbn.
    + destruct v as [v|]; [eapply Hval; eauto|]. exists []. split; [constructor|]. apply (within_part [] [] (ts ++ ts')). exact HL.
    + apply (Hsh [] ts [] k v); auto. now rewrite app_nil_r.
    + exists sp. exact HL.
    + intros v' ->. apply (Hval (TIdent i :: TPunct ":" sp :: ks ++ ms) vs (Some v') follow); auto. cbn [app]. rewrite <- app_assoc. exact HL.
    + intros v' Hx. inversion Hx; subst v'. apply (Hsh [TIdent i; TPunct ":" sp] ks ms k v); auto.
  - intros sp args sp' HL _. red. eauto.
  - intros ts v f HL Hp _. exists ts. split; auto. eapply phrase_written; eauto.
  - apply (within_refl input).
Qed.
Print Assumptions C17_from_the_source.

Lemma bad_prefix_code i ts code : i <> Id false "f" -> ~ value_code (VBracket (Some i) ts) code.
Proof. intros Hi H. inversion H; subst. congruence. Qed.

(** A prefix other than [f] is never accepted, ... *)
Theorem C17_bad_prefix E input cs i ts :
  env_ok E -> built E input cs -> i <> Id false "f" ->
  (In (CValue (VBracket (Some i) ts)) cs \/
   exists b e, checked cs b e /\ value_in e (VBracket (Some i) ts)) ->
  forall out, mview E input <> Expanded out.
Proof.
  intros HE Hb Hi [Hv|(b & e & Hc & Hv)].
  - eapply not_coded; eauto. intros out Hr. destruct (root_value_code _ _ _ Hr Hv) as (c & H & _). now apply bad_prefix_code in H.
  - eapply not_coded_below; eauto. intros code Hcode. destruct (value_in_code _ _ _ _ Hcode Hv) as (c & H & _).
    now apply bad_prefix_code in H.
Qed.
Print Assumptions C17_bad_prefix.

Lemma value_diag i ts : i <> Id false "f" -> value_tokens (VBracket (Some i) ts) = XR (XRet []) [DPrefix].
Proof.
  intros Hi. cbn [value_tokens]. destruct (ident_is i "f") eqn:Hx; [|reflexivity].
  apply ident_is_eq in Hx; [congruence|no_raw].
Qed.

(** ... and it is what is reported where a value is a child or the value of a
    plain attribute (on other directives another error may be all there is). *)
Theorem C17_bad_prefix_reported E input cs i ts :
  env_ok E -> built E input cs -> no_root_slot cs -> i <> Id false "f" ->
  (In (CValue (VBracket (Some i) ts)) cs \/
   exists b e, reached cs b e /\
     (In (CValue (VBracket (Some i) ts)) (child_list (el_children e)) \/
      exists k, In (AKv (KvAttr k (VBracket (Some i) ts))) (el_attrs e))) ->
  reports E input DPrefix.
Proof.
  intros HE Hb Hs Hi [Hv|(b & e & Hr & Hv)].
  - eapply reported; eauto. intros out d H. apply root_inv in H. destruct (proj2 H _ Hv) as (t & d' & H' & Hd).
    rewrite value_diag in H' by auto. inversion H'; subst. apply Hd. now left.
  - eapply reported_below; eauto. intros at_ out d H. pose proof (element_inv _ _ _ _ _ _ H) as H0.
    destruct H0 as (_ & H1 & _ & H2 & H3 & _). destruct Hv as [Hv|(k & Hv)].
    + destruct (H1 _ Hv) as (t & d' & H' & Hd). rewrite value_diag in H' by auto. inversion H'; subst. apply Hd. now left.
    + destruct (match el_tag e with TagComponent p => Some p | _ => None end) as [p|] eqn:Ht.
      * assert (Ht' : el_tag e = TagComponent p) by (destruct (el_tag e); inversion Ht; reflexivity).
        destruct (H3 p Ht') as (a & d1 & d2 & Hl & Hd). apply comp_loop_inv in Hl. destruct (proj1 Hl _ Hv) as (t & d' & H' & Hd').
        apply Hd, Hd'. unfold component_kv_attribute_tokens in H'. cbn [kv_key kv_value] in H'.
        apply xbind_inv in H'. destruct H' as (? & ? & ? & _ & H' & ->). apply xbind_inv in H'. destruct H' as (? & ? & ? & H' & _ & ->).
        rewrite value_diag in H' by auto. inversion H'; subst. apply in_or_app. right. now left.
      * assert (Hnc : not_component (el_tag e)) by (intros p Hp; rewrite Hp in Ht; discriminate).
        destruct b.
        { destruct e as [t sels attrs args ch]. rewrite expand_element_eq in H. cbn [el_tag] in *. destruct t; discriminate. }
        destruct (H2 eq_refl Hnc) as (a & d1 & d2 & Hl & Hd). apply html_loop_inv in Hl. destruct (proj1 Hl _ Hv) as (t & d' & H' & Hd').
        apply Hd, Hd'. unfold xml_kv_attribute_tokens in H'. cbn [kv_key kv_value] in H'. rewrite value_diag in H' by auto.
        destruct (String.eqb (k_repr k) "ref"); [inversion H'; now left|].
        destruct (_ && _); [inversion H'; now left|].
        apply xbind_inv in H'. destruct H' as (? & ? & ? & _ & H' & ->). inversion H'; subst. apply in_or_app. right. now left.
Qed.
Print Assumptions C17_bad_prefix_reported.

Example C17_case : expands E0 sample sample_cs sample_out /\
  used sample_cs false sample_html /\ value_in sample_html (VBracket None (lex "b")) /\
  value_in sample_html (VLit (LitTok LkStr "text")) /\ value_in sample_html (VBlock (lex "c")) /\
  used sample_cs false sample_comp /\ value_in sample_comp (VBlock [TLit LkInt "2"]).
Proof.
  split; [apply sample_expands|]. split; [apply sample_html_used|].
  split; [apply vi_child; vm_compute; auto|]. split; [apply vi_child; vm_compute; auto|].
  split; [eapply vi_directive with (d := Directive (Id false "class") (KKebab (Kebab "x-y" 2)) None (Some (VBlock (lex "c")))); [vm_compute; auto 10|reflexivity]|].
  split; [apply sample_comp_used|]. apply (vi_attr sample_comp (KvAttr (Kebab "p-q" 2) (VBlock [TLit LkInt "2"]))). vm_compute. auto.
Qed.
Definition bad_prefix_input : list tt := lex "p a=g[x] { h[y] }".
Example C17_bad_prefix_case : built E0 bad_prefix_input (tree_of bad_prefix_input) /\ no_root_slot (tree_of bad_prefix_input) /\
  mview E0 bad_prefix_input = Errors [DPrefix; DPrefix].
Proof.
  split; [eexists _, _; vm_compute; reflexivity|]. split; [|vm_compute; reflexivity].
  intros e H. vm_compute in H. intuition discriminate.
Qed.

(** ** C23: directives on HTML elements *)

(** The event type [::leptos::tachys::html::event::name]. *)
Definition event_path (k : kebab) : list tt :=
  abs_path ["leptos"; "tachys"; "html"; "event"] ++ dcolon ++ [TIdent (Id true (snake_name (k_repr k)))].

Theorem C23_html_directives E input cs out t sels attrs args ch n k m v :
  expands E input cs out -> used cs false (Element t sels attrs args ch) -> not_component t ->
  In (ADir (Directive n k m v)) attrs ->
  exists code c vts,
    within code out /\ In c (calls_in code) /\ opt_value_code v vts /\
    ((n = Id false "class" \/ n = Id false "style") /\ m = None /\
       c = Call n [parens (str (key_text k) :: sym "," :: vts)]
     \/ n = Id false "prop" /\ m = None /\ c = Call n (str (key_text k) :: sym "," :: vts)
     \/ n = Id false "on" /\ m = None /\
        (exists k', k = KKebab k' /\ c = Call n (event_path k' ++ sym "," :: vts))
     \/ n = Id false "on" /\ m = Some (Id false "undelegated") /\
        (exists k', k = KKebab k' /\
           c = Call n ((abs_path ["leptos"; "tachys"; "html"; "event"; "undelegated"] ++ [parens (event_path k')])
                       ++ sym "," :: vts))
     \/ n = Id false "use" /\ m = None /\
        (exists k', k = KKebab k' /\
           c = Call (Id false "directive") (TIdent (Id true (snake_name (k_repr k'))) :: sym "," ::
                 match v with
                 | None => [parens []; sym "."; word "into"; parens []]
                 | Some _ => abs_path ["std"; "convert"; "Into"; "into"] ++ [parens vts]
                 end))).
Proof.
  intros He Hu Ht Hd. destruct (expands_used _ _ _ _ _ _ He Hu) as (code & Hc & Hw).
  apply html_code in Hc; auto. destruct Hc as (head & kvs & dirs & codes & Hh & H1 & H2 & H3 & ->).
  apply dirs_of_in in Hd. destruct (forall2_in_l _ _ _ _ H2 Hd) as (c & Hc & Hr).
  exists (head ++ chain (kvs ++ dirs ++ map class_call (classes_of sels) ++ map id_call (ids_of sels)
                    ++ map spread_call (spreads_of attrs) ++ map child_call codes)), c.
  assert (Hin : In c (calls_in (head ++ chain (kvs ++ dirs ++ map class_call (classes_of sels) ++ map id_call (ids_of sels)
                    ++ map spread_call (spreads_of attrs) ++ map child_call codes)))).
  { rewrite (calls_html _ _ _ Hh). apply in_or_app. right. apply in_or_app. now left. }
  inversion Hr as [n' k' v' ts Hn Hv|k' v' ts Hv|k' m' v' ev ts Hev Hv|k' v' ts Huse]; subst.
  - exists ts. split; [exact Hw|]. split; [exact Hin|]. split; [exact Hv|]. left. destruct Hn as [->| ->]; auto.
  - exists ts. split; [exact Hw|]. split; [exact Hin|]. split; [exact Hv|]. right. left. auto.
  - exists ts. split; [exact Hw|]. split; [exact Hin|]. split; [exact Hv|].
    inversion Hev as [k' i [_ ->]|k' i [_ ->]]; subst; [do 2 right; left|do 3 right; left]; (split; [reflexivity|]); (split; [reflexivity|]);
      exists k'; (split; [reflexivity|]); reflexivity.
  - inversion Huse as [k' i [_ ->]|k' i v' ts' [_ ->] Hv]; subst.
    + exists []. split; [exact Hw|]. split; [exact Hin|]. split; [constructor|]. do 4 right. split; [reflexivity|]. split; [reflexivity|].
      exists k'. split; reflexivity.
    + exists ts'. split; [exact Hw|]. split; [exact Hin|]. split; [now constructor|]. do 4 right. split; [reflexivity|]. split; [reflexivity|].
      exists k'. split; reflexivity.
Qed.
Print Assumptions C23_html_directives.

(** Anything else on an HTML element is reported. *)
Theorem C23_others_reported E input cs e d :
  env_ok E -> built E input cs -> no_root_slot cs ->
  reached cs false e -> not_component (el_tag e) -> In (ADir d) (el_attrs e) ->
  ~ In (d_dir d) (map (Id false) ["class"; "style"; "prop"; "on"; "use"]) ->
  reports E input (if in_dec ident_dec (d_dir d) [Id false "attr"; Id false "clone"]
                   then DNotOnElements (ident_to_string (d_dir d)) else DUnknownDirective).
Proof.
  intros HE Hb Hs Hr Ht Hd Hn. eapply html_dir_reports; eauto. intros ts ds H. unfold xml_directive_tokens in H.
  assert (Hne : forall s, In s ["class"; "style"; "prop"; "on"; "use"] -> String.eqb (ident_to_string (d_dir d)) s = false).
  { intros s Hin. destruct (String.eqb (ident_to_string (d_dir d)) s) eqn:Hx; auto. exfalso. apply ident_string_is in Hx; [|clear -Hin; cbn in Hin; intuition subst; no_raw].
    apply Hn. rewrite Hx. now apply in_map. }
  rewrite !Hne in H by (cbn; tauto). cbn [orb] in H.
  destruct (String.eqb (ident_to_string (d_dir d)) "attr" || String.eqb (ident_to_string (d_dir d)) "clone") eqn:Hac.
  - inversion H; subst. destruct (in_dec _ _ _) as [Hi|Hi]; [now left|]. destruct Hi.
    apply orb_true_iff in Hac. destruct Hac as [Hac|Hac]; apply ident_string_is in Hac; try no_raw; rewrite Hac; cbn; auto.
  - inversion H; subst. apply orb_false_iff in Hac. destruct Hac as [Ha Hc]. destruct (in_dec _ _ _) as [[Hi|[Hi|[]]]|Hi]; [..|now left].
    + rewrite <- Hi in Ha. discriminate.
    + rewrite <- Hi in Hc. discriminate.
Qed.
Print Assumptions C23_others_reported.

Example C23_case : expands E0 sample sample_cs sample_out /\ used sample_cs false sample_html /\
  not_component (el_tag sample_html) /\
  map (fun d => i_name (d_dir d)) (dirs_of (el_attrs sample_html)) = ["class"; "prop"; "on"; "use"].
Proof. split; [apply sample_expands|]. split; [apply sample_html_used|]. split; [apply sample_html_tag|]. reflexivity. Qed.
Definition bad_directives : list tt := lex "p { q attr:a=1 clone:b nope:c class:d; }".
Example C23_others_case : built E0 bad_directives (tree_of bad_directives) /\ no_root_slot (tree_of bad_directives) /\
  mview E0 bad_directives = Errors [DNotOnElements "attr"; DNotOnElements "clone"; DUnknownDirective].
Proof.
  split; [eexists _, _; vm_compute; reflexivity|]. split; [|vm_compute; reflexivity].
  intros e H. vm_compute in H. intuition discriminate.
Qed.

(** ** C24: directives and spreads on components *)

(** The attributes other than [key=value] and [clone:]. *)
Definition extra_attr (a : attr) : bool :=
  match a with
  | AKv _ => false
  | ADir d => if ident_dec (d_dir d) (Id false "clone") then false else true
  | ASpread _ => true
  end.
Lemma entries_filter l : entries_of l = filter extra_attr l.
Proof.
  induction l as [|[a|d|s] l IH]; cbn [entries_of filter extra_attr]; auto; [|now rewrite IH].
  unfold is_clone. destruct (ident_dec (d_dir d) (Id false "clone")) as [Hx|Hx]; rewrite IH.
  - rewrite Hx. reflexivity.
  - destruct (d_dir d) as [[] n]; auto. destruct (String.eqb n "clone") eqn:Hn; auto. apply String.eqb_eq in Hn. congruence.
Qed.
Definition html_path (l : list string) : list tt := abs_path (["leptos"; "tachys"; "html"] ++ l).
(** The value of a directive; [true] where there is none. *)
Definition default_true (v : option value) (ts : list tt) : Prop :=
  match v with Some v => verbatim v ts | None => ts = [word "true"] end.
Definition no_default (v : option value) (ts : list tt) : Prop :=
  match v with Some v => verbatim v ts | None => ts = [] end.
Definition name_of (k : kebab_or_str) : ident := Id true (snake_name (key_text k)).
Definition is_name (k : kebab_or_str) : Prop := exists k', k = KKebab k'.

(** The entry of one attribute. *)
Definition entry_shape (a : attr) (code : list tt) : Prop :=
  match a with
  | AKv _ => False
  | ASpread ts => code = ts
  | ADir (Directive n k m v) =>
      let key := key_text k in
      i_raw n = false /\
      ((i_name n = "class" \/ i_name n = "style") /\
         (exists ts, default_true v ts /\
            code = html_path [i_name n; i_name n] ++ [parens [parens (str key :: sym "," :: ts)]])
       \/ i_name n = "attr" /\ (key = "class" \/ key = "style") /\ is_name k /\
         (exists ts, default_true v ts /\ code = html_path [key] ++ dcolon ++ [TIdent (Id true key); parens ts])
       \/ i_name n = "attr" /\ custom_name key /\
         (exists ts, default_true v ts /\
            code = html_path ["attribute"; "custom"; "custom_attribute"] ++ [parens (str key :: sym "," :: ts)])
       \/ i_name n = "attr" /\ key <> "class" /\ key <> "style" /\ ~ custom_name key /\ is_name k /\
         (exists ts, default_true v ts /\ code = html_path ["attribute"] ++ dcolon ++ [TIdent (name_of k); parens ts])
       \/ i_name n = "prop" /\ is_name k /\
         (exists ts, default_true v ts /\ code = html_path ["property"] ++ dcolon ++ [TIdent (name_of k); parens ts])
       \/ i_name n = "on" /\ is_name k /\
         (exists ts ev, no_default v ts /\
            code = html_path ["event"; "on"] ++ [parens (ev ++ sym "," :: ts)] /\
            (m = None /\ ev = html_path ["event"] ++ dcolon ++ [TIdent (name_of k)] \/
             m = Some (Id false "undelegated") /\
             ev = html_path ["event"; "undelegated"] ++ [parens (html_path ["event"] ++ dcolon ++ [TIdent (name_of k)])]))
       \/ i_name n = "use" /\ is_name k /\ m = None /\
         (exists ts, no_default v ts /\
            code = html_path ["directive"; "directive"] ++
              [parens (TIdent (name_of k) :: sym "," ::
                 match v with
                 | None => [parens []; sym "."; word "into"; parens []]
                 | Some _ => abs_path ["std"; "convert"; "Into"; "into"] ++ [parens ts]
                 end)]))
  end.
Lemma default_true_code v ts : value_or_true_code v ts -> default_true v ts.
Proof. intros []; cbn; auto. now apply verbatim_code. Qed.
Lemma no_default_code v ts : opt_value_code v ts -> no_default v ts.
Proof. intros []; cbn; auto. now apply verbatim_code. Qed.
Lemma entry_has_shape a code : entry_code a code -> entry_shape a code.
Proof.
  intros [ts|n k m v ts Hn Hv|n c m v ts Hn Hv|k m v ts Hk Hv|k i m v ts H1 H2 H3 [_ ->] Hv|k i m v ts [_ ->] Hv|k m v ev ts Hev Hv|k v ts Hu];
    cbn [entry_shape i_raw i_name]; auto; (split; [reflexivity|]); try apply default_true_code in Hv.
  - left. split; auto. exists ts. split; auto.
  - right. left. cbn [key_text k_repr]. split; auto. split; auto. split; [red; eauto|]. exists ts. auto.
  - do 2 right. left. split; auto. split; auto. exists ts. auto.
  - do 3 right. left. split; auto. split; auto. split; auto. split; auto. split; [red; eauto|]. exists ts. auto.
  - do 4 right. left. split; auto. split; [red; eauto|]. exists ts. auto.
  - do 5 right. left. split; auto. apply no_default_code in Hv. inversion Hev as [k' i [_ ->]|k' i [_ ->]]; subst; (split; [red; eauto|]).
    + exists ts, (html_path ["event"] ++ dcolon ++ [TIdent (name_of (KKebab k'))]). auto.
    + exists ts, (html_path ["event"; "undelegated"] ++ [parens (html_path ["event"] ++ dcolon ++ [TIdent (name_of (KKebab k'))])]).
      auto.
  - do 6 right. split; auto. inversion Hu as [k' i [_ ->]|k' i v' ts' [_ ->] Hv]; subst; (split; [red; eauto|]); (split; [reflexivity|]).
    + exists []. split; reflexivity.
    + exists ts'. split; [now apply verbatim_code|reflexivity].
Qed.

Theorem C24_component_entries E input cs out p sels attrs args ch :
  expands E input cs out -> used cs false (Element (TagComponent p) sels attrs args ch) ->
  exists path calls selector_part entries,
    within ([sym "#"; brackets [word "allow"; parens [word "unreachable_code"]]] ++
            abs_path ["leptos"; "prelude"; "View"; "new"] ++
            [parens (abs_path ["leptos"; "component"; "component_view"] ++
               [parens (sym "&" :: path ++ sym "," ::
                        abs_path ["leptos"; "component"; "component_props_builder"] ++
                        [parens (sym "&" :: path)] ++ calls)] ++
               [sym "."; word "add_any_attr"; parens [parens (comma_ended (selector_part ++ entries))]])]) out /\
    List.length selector_part = List.length (classes_of sels) + Nat.min 1 (List.length (ids_of sels)) /\
    Forall2 entry_shape (filter extra_attr attrs) entries.
Proof.
  intros He Hu. destruct (expands_used _ _ _ _ _ _ He Hu) as (code & Hc & Hw). cbn [code_of] in Hc.
  apply component_code in Hc.
  destruct Hc as (path & props & entries & clones & codes & slots & scalls & Hp & H1 & H2 & H3 & H4 & H5 & H6 & ->).
  exists path, (chain ((props ++ children_calls args clones codes ++ scalls) ++ [plain_call "build" []])), (selector_entries sels), entries.
  split; [exact Hw|]. split.
  - unfold selector_entries. rewrite app_length, map_length. f_equal. unfold id_entries. destruct (ids_of sels); reflexivity.
  - rewrite <- entries_filter. clear -H2. induction H2; constructor; auto. now apply entry_has_shape.
Qed.
Print Assumptions C24_component_entries.

Theorem C24_unknown_reported E input cs e p d :
  env_ok E -> built E input cs -> no_root_slot cs ->
  reached cs false e -> el_tag e = TagComponent p -> In (ADir d) (el_attrs e) ->
  ~ In (d_dir d) (map (Id false) ["class"; "style"; "attr"; "prop"; "on"; "use"; "clone"]) ->
  reports E input DUnknownDirective.
Proof.
  intros HE Hb Hs Hr Ht Hd Hn. eapply comp_dir_reports; eauto. intros acc y ds H. apply comp_loop_inv in H.
  assert (Hne : forall s, In s ["class"; "style"; "attr"; "prop"; "on"; "use"; "clone"] -> ident_to_string (d_dir d) <> s).
  { intros s Hin Hx. apply String.eqb_eq, ident_string_is in Hx; [|clear -Hin; cbn in Hin; intuition subst; no_raw].
    apply Hn. rewrite Hx. now apply in_map. }
  destruct H as (_ & _ & _ & _ & H). specialize (H d Hd). specialize (H (Hne "clone" ltac:(cbn; tauto)) eq_refl).
  unfold directive_to_any_attr_path in H.
  assert (Hb' : forall s, In s ["class"; "style"; "attr"; "prop"; "on"; "use"; "clone"] -> String.eqb (ident_to_string (d_dir d)) s = false).
  { intros s Hin. apply String.eqb_neq. auto. }
  rewrite !Hb' in H by (cbn; tauto). exact H.
Qed.
Print Assumptions C24_unknown_reported.

Example C24_case : expands E0 sample sample_cs sample_out /\ used sample_cs false sample_comp /\
  List.length (filter extra_attr (el_attrs sample_comp)) = 2.
Proof. split; [apply sample_expands|]. split; [apply sample_comp_used|]. reflexivity. Qed.
Definition comp_attrs : list tt := lex
  "C.a #b #c x=1 class:d style:e={1} attr:f attr:class='g' attr:data-h prop:i on:j={k} on:l:undelegated={m} use:n use:o={1} clone:q {..r} class:'a b';".
Example C24_all_kinds : let cs := tree_of comp_attrs in
  expands E0 comp_attrs cs (out_of comp_attrs) /\
  exists e, used cs false e /\ (exists p, el_tag e = TagComponent p) /\ List.length (filter extra_attr (el_attrs e)) = 12.
Proof.
  split; [apply case_expands; vm_compute; reflexivity|].
  eexists. split; [apply used_root; vm_compute; left; reflexivity|]. split; [vm_compute; eauto|]. reflexivity.
Qed.
Definition bad_component : list tt := lex "C { D nope:c class:d; }".
Example C24_unknown_case : built E0 bad_component (tree_of bad_component) /\ no_root_slot (tree_of bad_component) /\
  mview E0 bad_component = Errors [DUnknownDirective].
Proof.
  split; [eexists _, _; vm_compute; reflexivity|]. split; [|vm_compute; reflexivity].
  intros e H. vm_compute in H. intuition discriminate.
Qed.

(** ** C25: selectors on components *)

Theorem C25_component_selectors E input cs out p sels attrs args ch :
  expands E input cs out -> used cs false (Element (TagComponent p) sels attrs args ch) ->
  exists calls rest,
    within (calls ++ [sym "."; word "add_any_attr";
              parens [parens (comma_ended (
                map (fun k => html_path ["class"; "class"] ++
                              [parens [parens [str (k_repr k); sym ","; word "true"]]]) (classes_of sels) ++
                match ids_of sels with
                | [] => []
                | ids => [html_path ["attribute"] ++ dcolon ++
                          [TIdent (Id true "id"); parens [str (String.concat " " (map k_repr ids))]]]
                end ++ rest))]]) out /\
    List.length rest = List.length (filter extra_attr attrs).
Proof.
  intros He Hu. destruct (expands_used _ _ _ _ _ _ He Hu) as (code & Hc & Hw). cbn [code_of] in Hc.
  apply component_code in Hc.
  destruct Hc as (path & props & entries & clones & codes & slots & scalls & Hp & H1 & H2 & H3 & H4 & H5 & H6 & ->).
  eexists _, entries. split; [|rewrite <- entries_filter; clear -H2; induction H2; cbn; auto].
  eapply within_trans; [|exact Hw]. unfold component_frame. apply within_r, within_r, within_in.
  replace (selector_entries sels ++ entries) with
    (map (fun k => html_path ["class"; "class"] ++ [parens [parens [str (k_repr k); sym ","; word "true"]]]) (classes_of sels) ++
      match ids_of sels with
      | [] => []
      | ids => [html_path ["attribute"] ++ dcolon ++
                [TIdent (Id true "id"); parens [str (String.concat " " (map k_repr ids))]]]
      end ++ entries).
  - match goal with |- within _ (?a ++ ?b ++ ?c) => rewrite (app_assoc a b c) end. apply within_refl.
  - unfold selector_entries. rewrite <- app_assoc. f_equal. f_equal. unfold id_entries.
    assert (Hsp : forall l, spaced l = String.concat " " l).
    { induction l as [|a l IH]; [reflexivity|]. destruct l; [reflexivity|]. cbn [spaced String.concat]. cbn [spaced] in IH. rewrite IH. reflexivity. }
    destruct (ids_of sels); [reflexivity|]. rewrite Hsp. reflexivity.
Qed.
Print Assumptions C25_component_selectors.

Example C25_case : expands E0 sample sample_cs sample_out /\ used sample_cs false sample_comp /\
  map k_repr (classes_of (el_sels sample_comp)) = ["k"] /\ map k_repr (ids_of (el_sels sample_comp)) = ["i2"; "i3"] /\
  String.concat " " ["i2"; "i3"] = "i2 i3".
Proof. split; [apply sample_expands|]. split; [apply sample_comp_used|]. repeat split. Qed.

(** ** C26: selectors on HTML elements *)

(** The last token of a name block is the name itself; the rest are dummy
    statements [let __x = ();] that only carry colours for editors. *)
Definition is_name_block (t : tt) (s : string) : Prop :=
  exists n, t = braces (List.concat (repeat [word "let"; word "__x"; sym "="; parens []; sym ";"] n) ++ [str s]).

Theorem C26_html_selectors E input cs out t sels attrs args ch :
  expands E input cs out -> used cs false (Element t sels attrs args ch) -> not_component t ->
  exists code before classes ids after,
    within code out /\
    calls_in code = before ++ map (fun b => Call (Id false "class") [parens [b; sym ","; word "true"]]) classes
                    ++ map (fun b => Call (Id false "id") [b]) ids ++ after /\
    Forall2 is_name_block classes (map k_repr (classes_of sels)) /\
    Forall2 is_name_block ids (map k_repr (ids_of sels)) /\
    List.length before = List.length (kvs_of attrs) + List.length (dirs_of attrs) /\
    List.length after = List.length (spreads_of attrs) + List.length (non_slots (child_list ch)).
Proof.
  intros He Hu Ht. destruct (expands_used _ _ _ _ _ _ He Hu) as (code & Hc & Hw).
  apply html_code in Hc; auto. destruct Hc as (head & kvs & dirs & codes & Hh & H1 & H2 & H3 & ->).
  assert (Hlen : forall A B (R : A -> B -> Prop) l l', Forall2 R l l' -> List.length l' = List.length l).
  { intros A B R l l' H. induction H; cbn; auto. }
  eexists _, (kvs ++ dirs), (map name_block (classes_of sels)), (map name_block (ids_of sels)), (map spread_call (spreads_of attrs) ++ map child_call codes).
  split; [exact Hw|]. rewrite (calls_html _ _ _ Hh). rewrite <- !app_assoc, !map_map. split; [reflexivity|].
  assert (Hb : forall l, Forall2 is_name_block (map name_block l) (map k_repr l)).
  { intros l. induction l; cbn; constructor; auto. eexists. reflexivity. }
  split; [apply Hb|]. split; [apply Hb|]. rewrite !app_length, !map_length. rewrite (Hlen _ _ _ _ _ H1), (Hlen _ _ _ _ _ H2), (Hlen _ _ _ _ _ H3). auto.
Qed.
Print Assumptions C26_html_selectors.

Example C26_case : expands E0 sample sample_cs sample_out /\ used sample_cs false sample_html /\
  map k_repr (classes_of (el_sels sample_html)) = ["c1"; "c2"] /\ map k_repr (ids_of (el_sels sample_html)) = ["i1"].
Proof. split; [apply sample_expands|]. split; [apply sample_html_used|]. split; reflexivity. Qed.
