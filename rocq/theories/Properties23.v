(** Theorem C57: how large expansions are. *)
From Verif Require Import Properties1 Properties2 ExampleFacts SizeFacts SpecSize.
From Coq Require Import Lia.
Open Scope list_scope.

Lemma counts_T ts n : counts ts n <-> n = T ts.
Proof.
  split.
  - induction 1 as [|d inner n ts m H1 IH1 H2 IH2|t ts m Ht H IH]; [reflexivity| |].
    + rewrite T_cons, t_group. lia.
    + rewrite T_cons. destruct t as [i|c sp|k s|d inner]; [rewrite t_ident|rewrite t_punct|rewrite t_lit|now destruct (Ht d inner)]; lia.
  - intros ->. revert ts.
    assert (Hall : forall n ts, T ts <= n -> counts ts (T ts)).
    { induction n as [|n IH]; intros [|t ts] Hn.
      - constructor.
      - rewrite T_cons in Hn. assert (Hp := t_pos t). lia.
      - constructor.
      - rewrite T_cons in *. destruct t as [i|c sp|k s|d inner].
        + rewrite t_ident in *. constructor; [intros; discriminate|]. apply IH. lia.
        + rewrite t_punct in *. constructor; [intros; discriminate|]. apply IH. lia.
        + rewrite t_lit in *. constructor; [intros; discriminate|]. apply IH. lia.
        + rewrite t_group in *. cbn [Nat.add]. constructor; apply IH; lia. }
    intros ts. exact (Hall _ ts (le_n _)).
Qed.

(** The largest views: what they read as, and the size of their code. *)
Fixpoint nested_tree (n : nat) : child :=
  match n with
  | 0 => CValue (VBracket None [])
  | S n => CElement (Element (TagComponent (Path false [PSeg (Id false "A") PNone])) [] [] None (Some [nested_tree n]))
  end.
Lemma nested_T n : T (nested n) = 2 * n + 1.
Proof. induction n as [|n IH]; [reflexivity|]. cbn [nested]. rewrite !T_cons, t_ident, t_group, IH, T_nil. lia. Qed.
Lemma nested_wf n : wf (nested n).
Proof.
  induction n as [|n IH]; [apply wfb_ok; reflexivity|]. cbn [nested]. apply wf_cons. split.
  - split; [now apply lexb_iff|discriminate].
  - apply wf_cons. split; [now apply wf_group|constructor].
Qed.
Lemma nested_no_name n : children_block (nested n).
Proof.
  assert (Hg : forall ts d l, name_phrase (ts ++ [TGroup d l]) -> False).
  { intros ts d l H. assert (Hr : forall b x e, run b x e -> ~ In (TGroup d l) x).
    { induction 1; cbn; intuition discriminate. }
    assert (Hin : In (TGroup d l) (ts ++ [TGroup d l])) by (apply in_or_app; right; now left).
    inversion H as [i x e Hx Heq|sp x e Hx Heq]; rewrite <- Heq in Hin; destruct Hin as [Hin|Hin]; try discriminate; exact (Hr _ _ _ Hx Hin). }
  destruct n as [|n]; cbn [nested].
  - split; [|split].
    + intros H. exact (Hg [] _ _ H).
    + intros (sp & r & H). discriminate.
    + intros [|t [|t' ts]] r H Hn; inversion H; subst; [inversion Hn|]. inversion Hn.
  - split; [|split].
    + intros H. exact (Hg [_] _ _ H).
    + intros (sp & r & H). discriminate.
    + intros [|t [|t' ts]] r H Hn; inversion H; subst; [inversion Hn|constructor|].
      destruct ts as [|t'' ts]; [|discriminate]. destruct (Hg [_] _ _ Hn).
Qed.
Lemma nested_reads E n : children_phrase E (nested n) [nested_tree n].
Proof.
  induction n as [|n IH]; cbn [nested nested_tree].
  - apply (ch_cons E [TGroup Bracket []] _ [] []); [|constructor]. apply ch_value; [constructor|]. intros l H. discriminate.
  - apply (ch_cons E [TIdent (Id false "A"); TGroup Brace (nested n)] _ [] []); [|constructor]. apply ch_element.
    + apply (el_phrase E [TIdent (Id false "A")] _ [] [] [] [] [TGroup Brace (nested n)] None (Some [nested_tree n]) []).
      * apply (tag_component E _ (Kebab "A" 1) (Id true "A")).
        -- intros [(sp & r & H)|[(sp & r & H)|[sp H]]]; discriminate.
        -- split; [eapply name_ident; constructor|]. split; [|split; [constructor|reflexivity]].
           intros H. inversion H as [i x e Hx|]; subst. inversion Hx.
        -- apply tag_kind_iff. reflexivity.
        -- split; [|reflexivity]. cbn. intuition discriminate.
      * constructor. intros [[sp H]|[sp H]]; discriminate.
      * constructor. exact (nested_no_name n).
      * apply end_block. now constructor.
    + exact I.
    + intros (sp & r & H & _). discriminate.
    + intros (v & x & r & H & Hv). inversion Hv; subst; inversion H.
Qed.
Lemma nested_code n : exists code, nodes_code [nested_tree n] [code].
Proof.
  induction n as [|n [code IH]]; cbn [nested_tree].
  - eexists. repeat constructor.
  - eexists. apply nc_element; [|constructor].
    apply (ec_component (Path false [PSeg (Id false "A") PNone]) [] [] None (Some [nested_tree n]) [TIdent (Id false "A")] [] [] [] [code] [] []).
    + repeat constructor.
    + constructor.
    + constructor.
    + constructor.
    + exact IH.
    + destruct n; cbn [nested_tree]; repeat constructor.
    + apply (slot_calls_intro [] [] []); [constructor|tauto|constructor].
Qed.
Lemma nested_code_size n : forall code, node_code (nested_tree n) code -> T code + 32 = 49 * (2 * n + 1).
Proof.
  induction n as [|n IH]; cbn [nested_tree]; intros code H; inversion H as [v ts Hv|e ts He]; subst; rewrite T_rendered.
  - inversion Hv; subst. weigh. reflexivity.
  - apply component_code in He. destruct He as (path & props & entries & clones & codes & slots & scalls & Hp & H1 & H2 & H3 & H4 & H5 & H6 & ->).
    inversion H1; subst. inversion H2; subst. inversion H3; subst. cbn [child_list] in *.
    assert (Hs : non_slots [nested_tree n] = [nested_tree n]) by (destruct n; reflexivity). rewrite Hs in H4.
    inversion H4 as [|? code ? ? Hc Hr]; subst. inversion Hr; subst. apply IH in Hc.
    assert (slots = []) as -> by (destruct n; cbn [nested_tree] in H5; inversion H5 as [|? ? ? Hx|? ? ? Hx|]; subst; inversion Hx; reflexivity).
    inversion H6 as [order cs Hn Hin H7]; subst.
    assert (order = []) as -> by (destruct order as [|i o]; auto; destruct (proj1 (Hin i) (or_introl eq_refl))).
    inversion H7; subst. rewrite T_component_frame. cbn [app selector_entries classes_of ids_of map id_entries total].
    inversion Hp as [l x Hx|]; subst. inversion Hx as [|s x' Hx'|]; subst. inversion Hx'; subst.
    cbn [children_calls total app]. unfold call_size. cbn [call_args plain_call List.concat app]. weigh. rewrite T_fragment. cbn [total]. lia.
Qed.

(** An expansion has at most 49 times as many tokens as the view, less 26;
    that of the empty view has 20. *)
Theorem C57_bound E input out n m : env_ok E -> wf input -> mview E input = Expanded out ->
  counts input n -> counts out m -> (n = 0 /\ m = 20) \/ m + 26 <= 49 * n.
Proof.
  intros HE Hw H Hn Hm. apply counts_T in Hn, Hm. subst.
  destruct (mview_sound _ _ _ HE Hw H) as (cs & Hc & Hr).
  destruct (view_size E input cs out Hc Hr) as [[-> Hs]|Hs]; auto.
Qed.
Print Assumptions C57_bound.

(** No smaller bound holds: for every depth there is a view that reaches it. *)
Theorem C57_reached E k : env_ok E -> exists out n m, wf (nested k) /\
  mview E (nested k) = Expanded out /\ counts (nested k) n /\ counts out m /\ k < n /\ m + 26 = 49 * n.
Proof.
  intros HE. destruct (nested_code k) as [code Hcode]. assert (Hw := nested_wf k). assert (Hr := nested_reads E k).
  assert (Hns : forall e, nested_tree k <> CSlot e) by (destruct k; discriminate).
  destruct (C43_meaning_is_expanded E (nested k) (root_frame code) HE Hw) as (out & Ho & cs & Hc & Hout).
  { exists [nested_tree k]. split; [exact Hr|]. now constructor. }
  assert (cs = [nested_tree k]) as -> by exact (C04_grammar_unambiguous E _ _ _ HE Hw Hc Hr).
  exists out, (T (nested k)), (T out). split; [exact Hw|]. split; [exact Ho|]. split; [now apply counts_T|]. split; [now apply counts_T|].
  rewrite nested_T. split; [lia|]. inversion Hout as [c code' H1 H2|? ? Hl]; subst; [|now destruct Hl].
  apply nodes_each in H2. rewrite non_slots_all in H2 by (intros e [Hx|[]]; exact (Hns e Hx)).
  inversion H2 as [|? ? ? ? H3 H4]; subst. apply nested_code_size in H3. rewrite T_root. lia.
Qed.
Print Assumptions C57_reached.

Example C57_case : exists out, mview E0 (lex "p.a k=1 class:x={c} { 'b' My<T> {..s} |q| { slot:S; 'd' } }") = Expanded out /\
  counts (lex "p.a k=1 class:x={c} { 'b' My<T> {..s} |q| { slot:S; 'd' } }") 31 /\ counts out 216.
Proof. eexists. split; [vm_compute; reflexivity|]. split; apply counts_T; vm_compute; reflexivity. Qed.
Example C57_empty_case : exists out, mview E0 [] = Expanded out /\ counts out 20.
Proof. eexists. split; [vm_compute; reflexivity|]. apply counts_T; vm_compute; reflexivity. Qed.

