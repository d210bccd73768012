(** Theorems C32-C34, C38: closure arguments, clones and modifiers. *)
From Verif Require Import PropFacts1 CodeFacts ElementFacts Inv Fuel ExampleFacts.
From Verif Require Import TreeInv PhraseInv Report Same Swap PlaceFacts Properties2 Properties3 Properties4.
From Verif Require Import SpecStr SpecGrammar SpecOut SpecRead SpecContext SpecEdit.
From Coq Require Import Lia Permutation.
Open Scope list_scope.
Open Scope expand_scope.
From Verif Require Import Properties6.

(** ** C32: closure arguments *)

(** In the tree of an accepted view, arguments are what is written between two
    pipes, with nothing changed but the spacing of the pipes. *)
Definition between_pipes (input ts : list tt) : Prop :=
  exists sp l sp', ts = TPunct "|" Alone :: l ++ [TPunct "|" Alone] /\ Forall not_pipe l /\
    within (TPunct "|" sp :: l ++ [TPunct "|" sp']) input.
Theorem C32_verbatim E input cs b e a : children_phrase E input cs -> anywhere cs b e ->
  el_args e = Some a -> between_pipes input a.
Proof.
  intros Hc He Ha.
  assert (Ht : Forall (tree (fun _ => True) (fun _ => True) (fun _ => True) (between_pipes input) (fun _ => True)) cs).
  { revert Hc. apply (phrase_tree _ _ _ _ _ E (fun ts => within ts input)) with (n := S (size input)); auto.
    - intros x y z. apply within_part.
    - intros d inner ts. apply within_inner.
    - intros sp args sp' HL Hp. exists sp, args, sp'. auto.
    - apply (within_refl input). }
  rewrite Forall_forall in Ht.
  assert (Hte : tree_elem (fun _ => True) (fun _ => True) (fun _ => True) (between_pipes input) (fun _ => True) e).
  { clear Ha. induction He as [e Hin|e Hin|b e e' H IH Hin|b e e' H IH Hin].
    - apply Ht in Hin. now inversion Hin.
    - apply Ht in Hin. now inversion Hin.
    - inversion IH; subst. cbn [el_children] in Hin. match goal with Hx : forall c, In c _ -> tree _ _ _ _ _ c |- _ => apply Hx in Hin; now inversion Hin end.
    - inversion IH; subst. cbn [el_children] in Hin. match goal with Hx : forall c, In c _ -> tree _ _ _ _ _ c |- _ => apply Hx in Hin; now inversion Hin end. }
  inversion Hte; subst. cbn [el_args] in Ha. subst. auto.
Qed.
Print Assumptions C32_verbatim.

(** Blocks of a tree: the tree itself or the children of one of its elements. *)
Definition block_of (cs l : list child) : Prop :=
  l = cs \/ exists b e, anywhere cs b e /\ el_children e = Some l.
Lemma block_child cs l slot e : block_of cs l -> In (as_child slot e) l -> exists b, anywhere cs b e.
Proof.
  intros [->|(b & e' & Ha & He)] Hin; destruct slot; cbn in Hin; eexists;
    [now apply any_root_slot|now apply any_root| |].
  - apply (any_slot cs b e'); auto. now rewrite He.
  - apply (any_child cs b e'); auto. now rewrite He.
Qed.
Lemma plug_tree E k : env_ok E -> forall x cs r d, fits E k x -> wf (plug k x) ->
  children_of E (plug k x) = PR (Ret cs) r d ->
  exists cs' r' d', children_of E x = PR (Ret cs') r' d' /\ block_of cs cs'.
Proof.
  intros HE. induction k as [|k IH pre slot u args d post]; intros x cs r dd Hf Hwf Hx; cbn [plug fits] in *.
  { exists cs, r, dd. split; auto. now left. }
  destruct Hf as ((c0 & Hp) & (t & sels & attrs & Hh) & Ho & Ha & Hd & Hk).
  destruct (IH _ _ _ _ Hk Hwf Hx) as (c1 & r1 & d1 & H1 & Hb). apply plug_wf in Hwf.
  rewrite (at_block E pre c0 slot u t sels attrs args d x post) in H1; auto.
  destruct (children_of_cases E x HE) as [(ci & ds & Hx')|[(r' & ds & Hx' & _)|(w & r' & ds & Hx')]];
    rewrite Hx' in *; cbn [append_to] in H1; try discriminate.
  exists ci, [], ds. split; auto.
  destruct (children_of_cases E post HE) as [(cp & dp & Hx2)|[(rp & dp & Hx2 & _)|(w & rp & dp & Hx2)]];
    rewrite Hx2 in H1; unfold prepend in H1; cbn [cons_child append_to p_out p_rest p_diags] in H1; try discriminate. inversion H1; subst.
  destruct (block_child cs _ slot (Element t sels attrs (args_kept args) (Some ci)) Hb) as (b & Hany).
  { apply in_or_app. right. now left. }
  right. exists b. eexists. split; [exact Hany|reflexivity].
Qed.

(** Whatever is between two pipes is read as arguments: [l] is any token list
    without pipes outside of groups. *)
Theorem C32_read E k pre slot u sp l sp' d post x cs :
  let place := Inside k pre slot u (Some (sp, l, sp')) d post in
  env_ok E -> wf (plug place x) -> fits E place x -> built E (plug place x) cs ->
  exists b e inner, anywhere cs b e /\ el_args e = Some (TPunct "|" Alone :: l ++ [TPunct "|" Alone]) /\
    el_children e = Some inner /\ built E x inner.
Proof.
  intros place HE Hwf Hf (r & ds & Hb). unfold place in *. clear place. cbn [plug fits] in *.
  destruct Hf as ((c0 & Hp) & (t & sels & attrs & Hh) & Ho & Ha & Hd & Hk).
  destruct (plug_tree E k HE _ _ _ _ Hk Hwf Hb) as (c1 & r1 & d1 & H1 & Hblk). apply plug_wf in Hwf.
  rewrite (at_block E pre c0 slot u t sels attrs (Some (sp, l, sp')) d x post) in H1; auto.
  destruct (children_of_cases E x HE) as [(ci & dc & Hx')|[(r' & dc & Hx' & _)|(w & r' & dc & Hx')]];
    rewrite Hx' in *; cbn [append_to] in H1; try discriminate.
  destruct (children_of_cases E post HE) as [(cp & dp & Hx2)|[(rp & dp & Hx2 & _)|(w & rp & dp & Hx2)]];
    rewrite Hx2 in H1; unfold prepend in H1; cbn [cons_child append_to p_out p_rest p_diags] in H1; try discriminate. inversion H1; subst.
  destruct (block_child cs _ slot (Element t sels attrs (args_kept (Some (sp, l, sp'))) (Some ci)) Hblk) as (b & Hany).
  { apply in_or_app. right. now left. }
  exists b. eexists _, ci. split; [exact Hany|]. split; [reflexivity|]. split; [reflexivity|]. exists [], dc. exact Hx'.
Qed.
Print Assumptions C32_read.

(** The children of a component (or slot) are wrapped in a closure: with the
    arguments as they are, or [to_children] of one without arguments. *)
Definition view_of (codes : list (list tt)) : list tt :=
  abs_path ["leptos"; "prelude"; "View"; "new"] ++ [parens [parens (comma_ended codes)]].
Definition children_closure (args : option (list tt)) (codes : list (list tt)) : list tt :=
  match args with
  | Some a => word "move" :: a ++ view_of codes
  | None => abs_path ["leptos"; "children"; "ToChildren"; "to_children"]
            ++ [parens (word "move" :: bars ++ view_of codes)]
  end.
Lemma with_children E input cs out b p sels attrs args ch :
  expands E input cs out -> used cs b (Element (TagComponent p) sels attrs args ch) ->
  non_slots (child_list ch) <> [] ->
  exists path before after entries clones codes,
    within (frame b path (before ++ plain_call "children"
              [braces (List.concat clones ++ children_closure args codes)] :: after) entries) out /\
    Forall2 node_code (non_slots (child_list ch)) codes /\
    Forall2 clone_code (clones_of attrs) clones /\
    code_of b (Element (TagComponent p) sels attrs args ch)
      (frame b path (before ++ plain_call "children"
              [braces (List.concat clones ++ children_closure args codes)] :: after) entries) /\
    code_of b (Element (TagComponent p) sels
        (filter (fun a => match a with ADir d => negb (is_clone d) | _ => true end) attrs) args ch)
      (frame b path (before ++ plain_call "children" [braces (children_closure args codes)] :: after) entries).
Proof.
  intros He Hu Hn. destruct (expands_used _ _ _ _ _ _ He Hu) as (code & Hc & Hw).
  assert (Hcc : forall clones codes, Forall2 node_code (non_slots (child_list ch)) codes ->
    children_calls args clones codes = [plain_call "children" [braces (List.concat clones ++ children_closure args codes)]]).
  { intros clones codes H. destruct codes as [|c codes]; [inversion H; congruence|]. destruct args; reflexivity. }
  set (keep := filter _ attrs).
  assert (Hk : kvs_of keep = kvs_of attrs /\ entries_of keep = entries_of attrs /\ clones_of keep = []).
  { unfold keep. clear. induction attrs as [|[a|a|a] l (IH1 & IH2 & IH3)]; cbn; auto.
    - repeat split; auto; now f_equal.
    - destruct (is_clone a) eqn:Ha; cbn; [auto|]. rewrite Ha. unfold clones_of in *. cbn. rewrite ?Ha. rewrite IH1, IH2, IH3. auto.
    - repeat split; auto; now f_equal. }
  destruct Hk as (Hk1 & Hk2 & Hk3).
  destruct b; cbn [code_of frame] in *.
  - assert (Hc0 := Hc). inversion Hc as [p' ? ? ? path props clones codes slots scalls Hp H1 H2 H3 H4 H5 H6]; subst.
    assert (Hnodes := proj1 (nodes_each _ _) H4). rewrite (Hcc _ _ Hnodes) in *.
    exists path, props, [], [], clones, codes. repeat match goal with |- _ /\ _ => split end; auto.
    rewrite <- (app_nil_l (children_closure args codes)). change (@nil tt) with (List.concat (@nil (list tt))) at 1.
    rewrite <- (Hcc [] codes Hnodes). eapply sc_slot; eauto; rewrite ?Hk1, ?Hk2, ?Hk3; auto.
  - assert (Hc0 := Hc). inversion Hc as [? ? ? ? ? head kvs dirs codes Hh Hkv Hd Hcd|
      ? ? ? ? ? path props entries clones codes slots scalls Hp H1 H2 H3 H4 H5 H6]; subst; [inversion Hh|].
    assert (Hnodes := proj1 (nodes_each _ _) H4). rewrite (Hcc _ _ Hnodes) in *.
    exists path, props, scalls, (selector_entries sels ++ entries), clones, codes. repeat match goal with |- _ /\ _ => split end; auto.
    change (plain_call "children" [braces (children_closure args codes)] :: scalls) with
      ([plain_call "children" [braces (List.concat [] ++ children_closure args codes)]] ++ scalls).
    rewrite <- (Hcc [] codes Hnodes). eapply ec_component; eauto; rewrite ?Hk1, ?Hk2, ?Hk3; auto.
Qed.

Theorem C32_code E input cs out b p sels attrs args ch :
  expands E input cs out -> used cs b (Element (TagComponent p) sels attrs args ch) ->
  non_slots (child_list ch) <> [] ->
  exists path before after entries clones codes,
    within (frame b path (before ++ plain_call "children" [braces (clones ++ children_closure args codes)] :: after) entries) out /\
    Forall2 node_code (non_slots (child_list ch)) codes.
Proof.
  intros He Hu Hn. destruct (with_children _ _ _ _ _ _ _ _ _ _ He Hu Hn) as (path & before & after & entries & clones & codes & Hw & Hc & _).
  exists path, before, after, entries, (List.concat clones), codes. auto.
Qed.
Print Assumptions C32_code.

(** Errors in the arguments. *)
Lemma closure_fails n : forall l, Forall not_pipe l -> List.length l < n -> closure_loop n l = PR (Fail EClosure) [] [].
Proof.
  induction n as [|n IH]; intros l Hl Hn; [lia|]. cbn [closure_loop]. destruct Hl as [|t l Ht Hl]; [reflexivity|].
  assert (Hp : rollback_err (parse_punct "|") (t :: l) = PR (Ret None) (t :: l) []).
  { destruct t as [| c sp | |]; try reflexivity. unfold rollback_err, parse_punct. cbn.
    destruct (Ascii.eqb c "|") eqn:Hc; [|now destruct c as [[] [] [] [] [] [] [] []]; cbn in *].
    apply Ascii.eqb_eq in Hc. subst c. exfalso. apply Ht. now exists sp. }
  rewrite (bind_run0 _ _ _ _ _ Hp). rewrite (bind_run0 (rollback_err parse_tt) _ (t :: l) (Some t) l eq_refl).
  cbn [List.length] in Hn. unfold bind. rewrite IH; auto. lia.
Qed.
Lemma tail_args pc t sels attrs sp l : element_tail pc t sels attrs (TPunct "|" sp :: l) =
  (args <- parse_closure_args ;;
   ts' <- look (fun ts => ts) ;;
   if peek_group Brace ts' then
     c <- delimited Brace pc ;; ret (Element t sels attrs (Some args) (Some c))
   else if peek_group Paren ts' then
     c <- delimited Paren pc ;; ret (Element t sels attrs (Some args) (Some c))
   else
     emit DNoChildrenAfterArgs ;;;
     ret (Element t sels attrs (Some args) None))%parse (TPunct "|" sp :: l).
Proof.
  unfold element_tail.
  rewrite (bind_run0 (rollback_err (parse_punct ";")) _ (TPunct "|" sp :: l) None _ eq_refl).
  rewrite (bind_run0 (look (fun ts => ts)) _ _ _ _ eq_refl). reflexivity.
Qed.
Lemma here_element E slot u t sels attrs r : env_ok E -> wf (slot_tokens slot ++ u ++ r) -> opens slot (u ++ r) ->
  elem_head E u t sels attrs r ->
  children_of E (slot_tokens slot ++ u ++ r) =
  append_to [] (child_result E ((e <- element_tail (children_of E) t sels attrs ;; ret (as_child slot e))%parse r)).
Proof.
  intros HE Hwf Ho Hh. rewrite <- (app_nil_l (slot_tokens slot ++ u ++ r)). rewrite (at_element E [] [] slot (u ++ r)); auto; [|constructor].
  f_equal. f_equal. unfold bind. rewrite (element_head E _ u t sels attrs); auto. apply wf_app in Hwf. tauto.
Qed.

Theorem C32_no_second_pipe E k pre slot u t sels attrs sp l :
  let x := slot_tokens slot ++ u ++ TPunct "|" sp :: l in
  env_ok E -> wf (child_place k pre x) -> at_child E k pre x ->
  opens slot (u ++ TPunct "|" sp :: l) -> elem_head E u t sels attrs (TPunct "|" sp :: l) ->
  Forall not_pipe l ->
  reports E (child_place k pre x) (DParse EClosure).
Proof.
  intros x HE Hwf Hat Ho Hh Hl. apply child_reports; auto. unfold x in *.
  rewrite (here_element E slot u t sels attrs); auto; [|now apply child_inner in Hwf].
  assert (Hc : parse_closure_args (TPunct "|" sp :: l) = PR (Fail EClosure) [] []).
  { unfold parse_closure_args.
    rewrite (bind_run0 (parse_punct "|") _ (TPunct "|" sp :: l) Datatypes.tt l eq_refl).
    unfold bind. rewrite closure_fails; auto. }
  unfold bind at 1. rewrite tail_args. unfold bind at 1. rewrite Hc. cbn. now left.
Qed.
Print Assumptions C32_no_second_pipe.

Theorem C32_no_block E k pre slot u t sels attrs sp l sp' rest :
  let x := slot_tokens slot ++ u ++ TPunct "|" sp :: l ++ TPunct "|" sp' :: rest in
  env_ok E -> wf (child_place k pre x) -> at_child E k pre x ->
  opens slot (u ++ TPunct "|" sp :: l ++ TPunct "|" sp' :: rest) ->
  elem_head E u t sels attrs (TPunct "|" sp :: l ++ TPunct "|" sp' :: rest) ->
  Forall not_pipe l -> ~ next_group Brace rest -> ~ next_group Paren rest ->
  reports E (child_place k pre x) DNoChildrenAfterArgs.
Proof.
  intros x HE Hwf Hat Ho Hh Hl Hb Hp. apply child_reports; auto. unfold x in *.
  rewrite (here_element E slot u t sels attrs); auto; [|now apply child_inner in Hwf].
  unfold bind at 1. rewrite tail_args.
  assert (Hc : parse_closure_args on TPunct "|" sp :: l ++ TPunct "|" sp' :: rest >> (TPunct "|" Alone :: l ++ [TPunct "|" Alone]), rest).
  { apply parse_closure_args_ok. exists sp, l, sp'. auto. }
  rewrite (bind_run0 _ _ _ _ _ Hc). rewrite (bind_run0 (look (fun ts => ts)) _ _ _ _ eq_refl).
  assert (peek_group Brace rest = false) as ->.
  { destruct rest as [|[| | |[]] rest]; try reflexivity. exfalso. now apply Hb. }
  assert (peek_group Paren rest = false) as ->.
  { destruct rest as [|[| | |[]] rest]; try reflexivity. exfalso. now apply Hp. }
  change (In DNoChildrenAfterArgs (p_diags (append_to [] (prepend [DNoChildrenAfterArgs]
    (cons_child (as_child slot (Element t sels attrs (Some (TPunct "|" Alone :: l ++ [TPunct "|" Alone])) None)) (children_of E rest)))))).
  destruct (children_of E rest) as [[] r0 d0]; cbn; now left.
Qed.
Print Assumptions C32_no_block.

Example C32_case :
  let place := Inside (deep (lex "'z'") (lex "p;")) (lex "'y'") None (lex "C a=1") (Some (Alone, lex "(x | y, _), Foo { z: [1 | 2] }", Joint)) Paren (lex "p;") in
  let x := lex "'k' {m}" in
  wf (plug place x) /\ fits E0 place x /\ built E0 (plug place x) (tree_of (plug place x)) /\
  (exists out, mview E0 (plug place x) = Expanded out).
Proof.
  intros place x. assert (Hwf : wf (plug place x)) by (apply wfb_ok; vm_compute; reflexivity).
  split; auto. split; [apply fitsb_ok; [apply E0_ok|exact Hwf|vm_compute; reflexivity]|].
  split; [eexists _, _; vm_compute; reflexivity|]. eexists. vm_compute. reflexivity.
Qed.
Example C32_code_case :
  let input := lex "C |a, (b | c)| { 'x' } D clone:y { {z} }" in
  expands E0 input (tree_of input) (out_of input) /\
  (exists p sels attrs a ch, used (tree_of input) false (Element (TagComponent p) sels attrs (Some a) ch) /\ non_slots (child_list ch) <> []) /\
  (exists p sels attrs ch, used (tree_of input) false (Element (TagComponent p) sels attrs None ch) /\ non_slots (child_list ch) <> []).
Proof.
  set (input := lex _). intros i; subst i. split; [apply case_expands; vm_compute; reflexivity|]. split.
  - repeat eexists; [apply used_root; vm_compute; left; reflexivity|discriminate].
  - repeat eexists; [apply used_root; vm_compute; right; left; reflexivity|discriminate].
Qed.
Example C32_errors_case :
  let k := deep (lex "'z'") (lex "p;") in let pre := lex "p; 'y'" in
  let x := lex "div a=1 |x, y 'z' { 'k' }" in let y := lex "div a=1 |x| p;" in
  (wf (child_place k pre x) /\ at_child E0 k pre x /\ opens None x /\
   (exists t sels attrs, elem_head E0 (lex "div a=1") t sels attrs (lex "|x, y 'z' { 'k' }"))) /\
  mview E0 (lex "div a=1 |x, y 'z' { 'k' }") = Errors [DParse EClosure] /\
  (wf (child_place k pre y) /\ at_child E0 k pre y /\ opens None y /\
   (exists t sels attrs, elem_head E0 (lex "div a=1") t sels attrs (lex "|x| p;"))) /\
  mview E0 (lex "div a=1 |x| p;") = Errors [DNoChildrenAfterArgs].
Proof.
  intros k pre x y. assert (Hx : wf (child_place k pre x)) by (apply wfb_ok; vm_compute; reflexivity).
  assert (Hy : wf (child_place k pre y)) by (apply wfb_ok; vm_compute; reflexivity).
  split; [|split; [vm_compute; reflexivity|split; [|vm_compute; reflexivity]]]; (split; [assumption|split; [apply at_childb_ok; [apply E0_ok|vm_compute; reflexivity]|split;
    [apply opensb_ok; vm_compute; reflexivity|apply elem_headb_ok; [apply E0_ok|apply wfb_ok; vm_compute; reflexivity|vm_compute; reflexivity]]]]).
Qed.

(** ** Parts that do not matter *)

Lemma lift_same E (L : element -> element -> Prop) : (forall b e e', L e e' -> elem_same E b e e') ->
  (forall e e', lift L e e' -> el_tag e = el_tag e' /\ forall b, elem_same E b e e') /\
  (forall o o', lift_opt L o o' -> match o, o' with
     | Some l, Some l' => Forall2 (child_same E) l l' | None, None => True | _, _ => False end) /\
  (forall l l', lift_list L l l' -> Forall2 (child_same E) l l').
Proof.
  intros HL. apply lift_ind3; try (intros; constructor; auto; fail).
  - intros t sels attrs attrs' args args' ch ch' H Hch IH. split; [reflexivity|]. intros b at_. rewrite (HL b _ _ H at_).
    destruct ch as [l|], ch' as [l'|]; try contradiction; [|reflexivity]. now apply same_children.
  - auto.
  - intros v l l' _ IH. constructor; auto. apply same_refl.
  - intros e e' l l' _ [_ He] _ IH. constructor; auto. now apply same_element.
  - intros e e' l l' _ [Ht He] _ IH. constructor; auto. apply same_slot; auto. now left.
Qed.
(** The trees of two views have the same expansion. *)
Lemma lift_mview E (L : element -> element -> Prop) input cs input' cs' :
  (forall b e e', L e e' -> elem_same E b e e') ->
  env_ok E -> wf input -> wf input' -> children_phrase E input cs -> children_phrase E input' cs' ->
  lift_list L cs cs' -> mview E input = mview E input'.
Proof.
  intros HL HE Hwf Hwf' Hc Hc' H. apply (lift_same E L HL) in H. apply mview_sim; auto.
  rewrite (children_of_phrase E input cs), (children_of_phrase E input' cs') by auto.
  apply (sim_ret E [] cs cs' [] []). exact H.
Qed.
Lemma no_nodes E l : non_slots l = [] -> forall at_ n, expand_nodes E at_ n l = [].
Proof.
  induction l as [|[v|e|e] l IH]; intros H at_ n; try discriminate; auto. cbn [expand_nodes]. now apply IH.
Qed.
Lemma no_nodes_opt E ch : non_slots (child_list ch) = [] -> forall at_,
  option_map (expand_nodes E at_ 0) ch = None \/ option_map (expand_nodes E at_ 0) ch = Some [].
Proof. intros H at_. destruct ch as [l|]; [right|left; auto]. cbn in *. now rewrite no_nodes. Qed.

(** ** C33: closure arguments that are ignored *)

Lemma idle_args_same E b e e' : idle_args e e' -> elem_same E b e e'.
Proof.
  intros [e0|t sels attrs args args' ch Ht|p sels attrs args args' ch Hn] at_; [reflexivity| |]; rewrite !expand_element_eq; unfold element_tokens.
  - destruct t; try reflexivity. now destruct (Ht p).
  - unfold component_to_tokens. destruct (no_nodes_opt E ch Hn at_) as [-> | ->]; destruct b; reflexivity.
Qed.

(** Two views whose trees only differ in such arguments, anywhere. *)
Theorem C33_ignored E input cs input' cs' :
  env_ok E -> wf input -> wf input' -> children_phrase E input cs -> children_phrase E input' cs' ->
  lift_list idle_args cs cs' -> mview E input = mview E input'.
Proof. apply lift_mview. apply idle_args_same. Qed.
Print Assumptions C33_ignored.

(** In the source: [|l|] between an HTML element and its block of children
    changes nothing, whatever is in the block and after it. *)
Theorem C33_html E k pre slot u t sels attrs sp l sp' d post x :
  let with_args := Inside k pre slot u (Some (sp, l, sp')) d post in
  let without := Inside k pre slot u None d post in
  env_ok E -> wf (plug with_args x) -> fits E with_args x -> fits E without x ->
  elem_head E u t sels attrs (TPunct "|" sp :: l ++ TPunct "|" sp' :: TGroup d x :: post) ->
  elem_head E u t sels attrs (TGroup d x :: post) ->
  (forall p, t <> TagComponent p) ->
  mview E (plug with_args x) = mview E (plug without x).
Proof.
  intros with_args without HE Hwf Hf Hf' Hh Hh' Ht. unfold with_args, without in *. cbn [plug fits] in *.
  destruct Hf as ((cs & Hp) & _ & Ho & Ha & Hd & Hk). destruct Hf' as (_ & _ & Ho' & _ & _ & Hk').
  assert (Hwf' : wf (plug k (pre ++ slot_tokens slot ++ u ++ args_tokens None ++ TGroup d x :: post))).
  { eapply plug_wf_iff; [exact Hwf|]. apply plug_wf in Hwf. cbn [args_tokens app] in *. rewrite !wf_app in *. wfs. }
  apply mview_plug; auto. apply plug_wf in Hwf. apply plug_wf in Hwf'.
  assert (Heq : TPunct "|" sp :: l ++ TPunct "|" sp' :: TGroup d x :: post = args_tokens (Some (sp, l, sp')) ++ TGroup d x :: post).
  { cbn [args_tokens app]. now rewrite <- app_assoc. }
  rewrite Heq in Hh.
  rewrite (at_block E pre cs slot u t sels attrs (Some (sp, l, sp')) d x post); auto.
  rewrite (at_block E pre cs slot u t sels attrs None d x post); auto.
  apply sim_append.
  destruct (children_of_cases E x HE) as [(ci & dc & ->)|[(r' & dc & -> & _)|(w & r' & dc & ->)]].
  - pose proof (sim_block E [] (as_child slot (Element t sels attrs (args_kept (Some (sp, l, sp'))) (Some ci)))
       (as_child slot (Element t sels attrs (args_kept None) (Some ci))) dc [] (children_of E post)) as Hs.
    cbn [app] in Hs. rewrite !app_nil_r in Hs. apply Hs; [|now apply sim_refl].
    assert (Hi : idle_args (Element t sels attrs (args_kept (Some (sp, l, sp'))) (Some ci))
       (Element t sels attrs (args_kept None) (Some ci))) by now apply idle_html.
    destruct slot; [apply same_slot; [now left|]|apply same_element]; now apply idle_args_same.
  - apply (sim_abort E [] (TGroup d x :: post) (TGroup d x :: post) [] dc).
  - apply (sim_panic E [] w (TGroup d x :: post) (TGroup d x :: post) [] dc).
  - exact I.
Qed.
Print Assumptions C33_html.

Example C33_case :
  let a := lex "div |x| { 'a' } C |y, z| { slot:S { D |w| { } } } E |v| { 'e' }" in
  let b := lex "div { 'a' } C { slot:S { D |q| { } } } E |v| { 'e' }" in
  wf a /\ wf b /\ children_phrase E0 a (tree_of a) /\ children_phrase E0 b (tree_of b) /\ tree_of a <> tree_of b /\
  lift_list idle_args (tree_of a) (tree_of b) /\ exists out, mview E0 a = Expanded out.
Proof.
  intros a b. assert (Ha : expands E0 a (tree_of a) (out_of a)) by (apply case_expands; vm_compute; reflexivity).
  assert (Hb : expands E0 b (tree_of b) (out_of b)) by (apply case_expands; vm_compute; reflexivity).
  destruct Ha as (_ & ? & ? & ?). destruct Hb as (_ & ? & ? & ?).
  repeat match goal with |- _ /\ _ => split end; eauto.
  - vm_compute. discriminate.
  - vm_compute. apply lift_element; [apply lift_intro; [apply idle_html; discriminate|repeat constructor]|].
    apply lift_element; [apply lift_intro; [now apply idle_component|]|].
    + apply lift_some, lift_slot; [|constructor]. apply lift_intro; [apply idle_same|]. apply lift_some, lift_element; [|constructor].
      apply lift_intro; [now apply idle_component|repeat constructor].
    + apply lift_element; [|constructor]. apply lift_intro; [apply idle_same|repeat constructor].
Qed.
Example C33_html_case :
  let place args := Inside (deep (lex "'z'") (lex "p;")) (lex "'y'") None (lex "div a=1") args Brace (lex "3 p;") in
  let x := lex "'k' {m} div" in
  wf (plug (place (Some (Alone, lex "q", Alone))) x) /\ fits E0 (place (Some (Alone, lex "q", Alone))) x /\ fits E0 (place None) x /\
  (exists t sels attrs, elem_head E0 (lex "div a=1") t sels attrs (TGroup Brace x :: lex "3 p;")).
Proof.
  intros place x. assert (Hwf : wf (plug (place (Some (Alone, lex "q", Alone))) x)) by (apply wfb_ok; vm_compute; reflexivity).
  split; auto. split; [apply fitsb_ok; [apply E0_ok|exact Hwf|vm_compute; reflexivity]|].
  split; [apply fitsb_ok; [apply E0_ok|apply wfb_ok; vm_compute; reflexivity|vm_compute; reflexivity]|].
  apply elem_headb_ok; [apply E0_ok|apply wfb_ok; vm_compute; reflexivity|vm_compute; reflexivity].
Qed.

(** ** C34: clones *)

(** [let x = x.clone();] *)
Definition clone_let (k : kebab) : list tt :=
  let x := TIdent (Id true (snake_name (k_repr k))) in
  [word "let"; x; sym "="; x; sym "."; word "clone"; parens []; sym ";"].
Definition keep_others (attrs : list attr) : list attr :=
  filter (fun a => match a with ADir d => negb (is_clone d) | _ => true end) attrs.

(** The clones come first in the children block, in source order, before the
    closure; without them the code would be the same otherwise. *)
Theorem C34_clones E input cs out b p sels attrs args ch :
  expands E input cs out -> used cs b (Element (TagComponent p) sels attrs args ch) ->
  non_slots (child_list ch) <> [] ->
  exists path before after entries codes names,
    let code clones := frame b path (before ++ plain_call "children"
              [braces (List.concat clones ++ children_closure args codes)] :: after) entries in
    within (code (map clone_let names)) out /\
    clones_of attrs = map (fun k => Directive (Id false "clone") (KKebab k) None None) names /\
    code_of b (Element (TagComponent p) sels (keep_others attrs) args ch) (code []) /\
    Forall2 node_code (non_slots (child_list ch)) codes.
Proof.
  intros He Hu Hn. destruct (with_children _ _ _ _ _ _ _ _ _ _ He Hu Hn) as (path & before & after & entries & clones & codes & Hw & Hc & Hcl & _ & H0).
  assert (Hnames : exists names, clones_of attrs = map (fun k => Directive (Id false "clone") (KKebab k) None None) names /\ clones = map clone_let names).
  { clear - Hcl. induction Hcl as [|d c l l' Hd _ (names & -> & ->)]; [exists []; auto|].
    inversion Hd as [k i [_ ->]]; subst. exists (k :: names). split; reflexivity. }
  destruct Hnames as (names & Hn1 & ->). exists path, before, after, entries, codes, names. cbv zeta. auto.
Qed.
Print Assumptions C34_clones.

(** Values and modifiers are always reported. *)
Theorem C34_value_reported E input cs b e p d :
  env_ok E -> built E input cs -> no_root_slot cs -> reached cs b e -> el_tag e = TagComponent p ->
  In (ADir d) (el_attrs e) -> d_dir d = Id false "clone" ->
  (d_value d <> None -> reports E input DCloneValue) /\
  (d_modifier d <> None -> reports E input DModifier).
Proof.
  intros HE Hb Hs Hr Ht Hin Hd.
  assert (Hl : forall at_ ts ds, expand_element E at_ b e = XR (XRet ts) ds ->
    exists ts' d', component_clone_tokens d = XR (XRet ts') d' /\ incl d' ds).
  { intros at_ ts ds H. apply element_inv in H. destruct H as (_ & _ & _ & _ & H & _).
    destruct (H p Ht) as (a & x & d2 & H2 & Hi). apply comp_loop_inv in H2. destruct H2 as (_ & _ & H2 & _).
    destruct (H2 d Hin) as (ts' & d' & H' & Hi'); [now rewrite Hd|]. exists ts', d'. split; auto. eapply incl_tran; eauto. }
  split; intros Hv; eapply reported_below; eauto; intros at_ ts ds H; destruct (Hl _ _ _ H) as (ts' & d' & H' & Hi); apply Hi;
    unfold component_clone_tokens in H'; apply xbind_inv in H'; destruct H' as (i & e1 & e2 & _ & H' & ->);
    apply xbind_inv in H'; destruct H' as (u & e3 & e4 & Hm & H' & ->); apply in_or_app; right; apply in_or_app.
  - right. destruct (d_value d); [|congruence]. inversion H'; subst. now left.
  - left. destruct (d_modifier d); [|congruence]. inversion Hm; subst. now left.
Qed.
Print Assumptions C34_value_reported.

(** On a component or slot without children there is nothing to clone for:
    clones without fault do not matter. *)
Definition drop_clones (x : X (list tt * list (list tt) * list tt)) : X (list tt * list (list tt)) :=
  ('(props, dirs, _) <- x ;; xret (props, dirs)).
Lemma drop_bind {A} (m : X A) f g : (forall a, drop_clones (f a) = drop_clones (g a)) ->
  drop_clones (xbind m f) = drop_clones (xbind m g).
Proof.
  intros H. destruct m as [[a| |w] d]; auto. specialize (H a). unfold drop_clones in *. cbn [xbind].
  destruct (f a) as [[[[]]| |w] d1], (g a) as [[[[]]| |w'] d2]; cbn in *; inversion H; subst; auto;
    rewrite ?app_nil_r in *; subst; auto.
Qed.
Lemma idle_loop slot l : (forall d, In d (clones_of l) -> exists code, clone_code d code) ->
  forall props dirs c c', drop_clones (component_attr_loop slot l (props, dirs, c)) =
                          drop_clones (component_attr_loop slot (keep_others l) (props, dirs, c')).
Proof.
  induction l as [|[a|d|s] l IH]; intros Hl props dirs c c'; [reflexivity| | |].
  - cbn [component_attr_loop keep_others filter]. apply drop_bind. intros t. now apply IH.
  - cbn [component_attr_loop keep_others filter]. destruct (is_clone d) eqn:Hc; cbn [negb].
    + destruct (Hl d) as (code & Hcode); [unfold clones_of; cbn; rewrite Hc; now left|].
      apply is_clone_iff in Hc. rewrite Hc. change (String.eqb (ident_to_string (Id false "clone")) "clone") with true. cbn iota.
      apply (clone_ok d code Hc) in Hcode. apply xbind_ok in Hcode. destruct Hcode as (u & Hu & Hcode). rewrite Hu. cbn [xbind].
      rewrite Hcode. cbn [xbind x_out x_diags app].
      assert (Hl' : forall d, In d (clones_of l) -> exists code, clone_code d code).
      { intros d' Hd'. apply Hl. unfold clones_of in *. cbn. rewrite (proj2 (is_clone_iff d) Hc). now right. }
      etransitivity; [|apply (IH Hl' props dirs (c ++ code) c')].
      now destruct (component_attr_loop slot l (props, dirs, c ++ code)).
    + assert (Hl' : forall d, In d (clones_of l) -> exists code, clone_code d code).
      { intros d' Hd'. apply Hl. unfold clones_of in *. cbn. rewrite Hc. exact Hd'. }
      cbn [component_attr_loop].
      destruct (String.eqb (ident_to_string (d_dir d)) "clone") eqn:Hs.
      { exfalso. apply ident_string_is in Hs; [|no_raw]. apply is_clone_iff in Hs. congruence. }
      destruct slot; [apply drop_bind; intros; now apply IH|].
      destruct (directive_to_any_attr_path d); apply drop_bind; intros; now apply IH.
  - cbn [component_attr_loop keep_others filter]. destruct slot; [apply drop_bind; intros; now apply IH|now apply IH].
Qed.
Lemma drop_ext {B} x y (f : list tt * list (list tt) * list tt -> X B) : drop_clones x = drop_clones y ->
  (forall p d c c', f (p, d, c) = f (p, d, c')) -> xbind x f = xbind y f.
Proof.
  intros H Hf. destruct x as [[[[p1 d1] c1]| |] e1], y as [[[[p2 d2] c2]| |] e2]; cbn in H; inversion H; subst; auto.
  rewrite !app_nil_r in *. subst. cbn [xbind]. now rewrite (Hf p2 d2 c1 c2).
Qed.
Lemma xbind_ext {A B} (m : X A) (f g : A -> X B) : (forall a, f a = g a) -> xbind m f = xbind m g.
Proof. intros H. destruct m as [[a| |] d]; auto. cbn. now rewrite H. Qed.
Lemma idle_clones_same E b e e' : idle_clones e e' -> elem_same E b e e'.
Proof.
  intros [e0|p sels attrs attrs' args ch Hn Hk Hf] at_; [reflexivity|]. rewrite !expand_element_eq.
  assert (Hl : forall dirs, drop_clones (component_attr_loop b attrs ([], dirs, [])) = drop_clones (component_attr_loop b attrs' ([], dirs, []))).
  { intros dirs. rewrite (idle_loop b attrs) with (c' := []) by (intros; apply Hf, in_or_app; auto).
    rewrite (idle_loop b attrs') with (c' := []) by (intros; apply Hf, in_or_app; auto). unfold keep_others. now rewrite Hk. }
  unfold element_tokens.
  assert (Hx : forall attrs, xml_to_tokens (TagComponent p) sels attrs (option_map (expand_nodes E at_ 0) ch) = None) by reflexivity.
  rewrite !Hx. unfold component_to_tokens.
  destruct (no_nodes_opt E ch Hn at_) as [-> | ->]; destruct b; cbn [expect_path];
    (apply xbind_ext; intros p'; apply xbind_ext; intros dirs0; apply drop_ext; [apply Hl|reflexivity]).
Qed.
Theorem C34_childless E input cs input' cs' :
  env_ok E -> wf input -> wf input' -> children_phrase E input cs -> children_phrase E input' cs' ->
  lift_list idle_clones cs cs' -> mview E input = mview E input'.
Proof. apply lift_mview. apply idle_clones_same. Qed.
Print Assumptions C34_childless.

Example C34_case :
  let input := lex "C clone:a x=1 clone:b-c class:d |y| { 'k' slot:S clone:e { {e} } }" in
  expands E0 input (tree_of input) (out_of input) /\
  exists e s, used (tree_of input) false e /\ used (tree_of input) true s /\ List.length (clones_of (el_attrs e)) = 2 /\
    List.length (clones_of (el_attrs s)) = 1 /\ non_slots (child_list (el_children e)) <> [] /\ non_slots (child_list (el_children s)) <> [].
Proof.
  set (input := lex _). intros i; subst i. split; [apply case_expands; vm_compute; reflexivity|].
  assert (H : exists e s v, tree_of input = [CElement e] /\ el_children e = Some [CValue v; CSlot s] /\ (exists p, el_tag e = TagComponent p) /\
     List.length (clones_of (el_attrs e)) = 2 /\
     List.length (clones_of (el_attrs s)) = 1 /\ non_slots (child_list (el_children s)) <> []).
  { vm_compute. repeat eexists. discriminate. }
  destruct H as (e & s & v & Ht & He & (p & Hp) & H1 & H2 & H3). rewrite Ht. exists e, s. split; [apply used_root; now left|].
  split; [eapply used_slot; [apply used_root; left; reflexivity|exact Hp|rewrite He; right; now left]|]. rewrite He. repeat split; auto. discriminate.
Qed.
Example C34_reported_case :
  let input := lex "C clone:a={b} clone:c:d { 'x' }" in
  built E0 input (tree_of input) /\ no_root_slot (tree_of input) /\
  mview E0 input = Errors [DCloneValue; DModifier; DModifier].
Proof.
  intros input. split; [eexists _, _; vm_compute; reflexivity|]. split; [|vm_compute; reflexivity].
  intros e H. vm_compute in H. intuition discriminate.
Qed.
Example C34_childless_case :
  let a := lex "C clone:a x=1 clone:b { slot:S clone:c; }" in let b := lex "C x=1 clone:z { slot:S; }" in
  wf a /\ wf b /\ children_phrase E0 a (tree_of a) /\ children_phrase E0 b (tree_of b) /\ tree_of a <> tree_of b /\
  lift_list idle_clones (tree_of a) (tree_of b) /\ exists out, mview E0 a = Expanded out.
Proof.
  intros a b. assert (Ha : expands E0 a (tree_of a) (out_of a)) by (apply case_expands; vm_compute; reflexivity).
  assert (Hb : expands E0 b (tree_of b) (out_of b)) by (apply case_expands; vm_compute; reflexivity).
  destruct Ha as (_ & ? & ? & ?). destruct Hb as (_ & ? & ? & ?).
  repeat match goal with |- _ /\ _ => split end; eauto.
  - vm_compute. discriminate.
  - vm_compute. assert (Hc : forall s, In s ["a"; "b"; "c"; "z"] -> exists code, clone_code (Directive (Id false "clone") (KKebab (Kebab s 1)) None None) code).
    { intros s Hs. exists (clone_let (Kebab s 1)). apply clone_intro. split; [|reflexivity].
      cbn in Hs. intuition subst; match goal with H : In _ _ |- _ => cbn in H; intuition discriminate end. }
    apply lift_element; [|constructor]. apply lift_intro.
    + apply idlec_component; try reflexivity. cbn. intros d [<-|[<-|[<-|[]]]]; apply Hc; cbn; tauto.
    + apply lift_some, lift_slot; [|constructor]. apply lift_intro; [|constructor]. apply idlec_component; try reflexivity.
      cbn. intros d [<-|[]]. apply Hc; cbn; tauto.
Qed.

(** ** C38: modifiers *)

Theorem C38_html E input cs out t sels attrs args ch d m :
  expands E input cs out -> used cs false (Element t sels attrs args ch) -> not_component t ->
  In (ADir d) attrs -> d_modifier d = Some m ->
  d_dir d = Id false "on" /\ m = Id false "undelegated".
Proof.
  intros He Hu Ht Hd Hm. destruct (expands_used _ _ _ _ _ _ He Hu) as (code & Hc & Hw).
  apply html_code in Hc; auto. destruct Hc as (head & kvs & dirs & codes & Hh & H1 & H2 & H3 & ->).
  assert (Hin : In d (dirs_of attrs)).
  { clear - Hd. induction attrs as [|[a|a|a] l IH]; cbn in *; intuition (try discriminate). injection H as ->. auto. }
  destruct (forall2_in_l _ _ _ _ H2 Hin) as (c & _ & Hx). inversion Hx; subst; cbn [d_modifier d_dir] in *; try discriminate.
  subst. match goal with H : event_code _ _ _ |- _ => inversion H; subst; auto end.
Qed.
Print Assumptions C38_html.

(** Any other modifier is reported; which report it is depends on the
    directive. *)
Theorem C38_html_reported E input cs e d m :
  env_ok E -> built E input cs -> no_root_slot cs ->
  reached cs false e -> not_component (el_tag e) -> In (ADir d) (el_attrs e) ->
  d_modifier d = Some m -> ~ (d_dir d = Id false "on" /\ m = Id false "undelegated") ->
  reports E input
    (if in_dec ident_dec (d_dir d) (map (Id false) ["class"; "style"; "prop"; "use"]) then DModifier
     else if ident_dec (d_dir d) (Id false "on") then DUnknownOnModifier
     else if in_dec ident_dec (d_dir d) (map (Id false) ["attr"; "clone"]) then DNotOnElements (ident_to_string (d_dir d))
     else DUnknownDirective).
Proof.
  intros HE Hb Hs Hr Ht Hin Hm Hn. eapply html_dir_reports; eauto. intros ts ds H.
  unfold xml_directive_tokens in H. cbv zeta in H. rewrite Hm in H.
  assert (Heq : forall s, In s ["class"; "style"; "prop"; "use"; "on"; "attr"; "clone"] ->
    (String.eqb (ident_to_string (d_dir d)) s = true <-> d_dir d = Id false s)).
  { intros s Hin'. apply ident_string_is. clear -Hin'; cbn in Hin'; intuition subst; no_raw. }
  assert (Hne : forall s, In s ["class"; "style"; "prop"; "use"; "on"; "attr"; "clone"] -> d_dir d <> Id false s ->
    String.eqb (ident_to_string (d_dir d)) s = false).
  { intros s Hs' Hd. destruct (String.eqb (ident_to_string (d_dir d)) s) eqn:Hx; auto. apply Heq in Hx; auto. congruence. }
  destruct (in_dec ident_dec (d_dir d) (map (Id false) ["class"; "style"; "prop"; "use"])) as [Hi|Hi].
  - cbn in Hi. destruct Hi as [Hi|[Hi|[Hi|[Hi|[]]]]]; rewrite <- Hi in H;
      cbn [ident_to_string i_raw i_name String.eqb Ascii.eqb Bool.eqb orb emit_error_if_modifier] in H.
    + apply xbind_inv in H. destruct H as (u & d1 & d2 & H1 & _ & ->). inversion H1; subst. now left.
    + apply xbind_inv in H. destruct H as (u & d1 & d2 & H1 & _ & ->). inversion H1; subst. now left.
    + apply xbind_inv in H. destruct H as (u & d1 & d2 & H1 & _ & ->). inversion H1; subst. now left.
    + apply xbind_inv in H. destruct H as (u & d1 & d2 & H1 & _ & ->). unfold use_directive_fn_value in H1.
      apply xbind_inv in H1. destruct H1 as (? & e1 & e2 & _ & H1 & ->). apply xbind_inv in H1. destruct H1 as (? & e3 & e4 & _ & H1 & ->).
      rewrite Hm in H1. apply xbind_inv in H1. destruct H1 as (? & e5 & e6 & H1 & _ & ->). inversion H1; subst.
      apply in_or_app. left. apply in_or_app. right. apply in_or_app. right. now left.
  - assert (Hno : forall s, In s ["class"; "style"; "prop"; "use"] -> String.eqb (ident_to_string (d_dir d)) s = false).
    { intros s Hs'. apply Hne; [cbn in *; tauto|]. intros Hd. apply Hi. rewrite Hd. now apply in_map. }
    rewrite (Hno "class"), (Hno "style"), (Hno "prop"), (Hno "use") in H by (cbn; tauto). cbn [orb] in H.
    destruct (ident_dec (d_dir d) (Id false "on")) as [Hon|Hon].
    + rewrite (proj2 (Heq "on" ltac:(cbn; tauto)) Hon) in H. apply xbind_inv in H. destruct H as (u & d1 & d2 & H1 & _ & ->).
      unfold event_listener_event_path in H1. apply xbind_inv in H1. destruct H1 as (? & e1 & e2 & _ & H1 & ->).
      apply xbind_inv in H1. destruct H1 as (? & e3 & e4 & _ & H1 & ->). rewrite Hm in H1.
      destruct (ident_is m "undelegated") eqn:Hmu.
      { exfalso. apply Hn. split; auto. apply ident_is_eq in Hmu; auto; no_raw. }
      inversion H1; subst. apply in_or_app. left. apply in_or_app. right. apply in_or_app. right. now left.
    + rewrite (Hne "on" ltac:(cbn; tauto) Hon) in H.
      destruct (in_dec ident_dec (d_dir d) (map (Id false) ["attr"; "clone"])) as [Ha|Ha].
      * assert (Hb' : String.eqb (ident_to_string (d_dir d)) "attr" || String.eqb (ident_to_string (d_dir d)) "clone" = true).
        { cbn in Ha. destruct Ha as [Ha|[Ha|[]]]; rewrite <- Ha; reflexivity. }
        rewrite Hb' in H. inversion H; subst. now left.
      * rewrite (Hne "attr"), (Hne "clone") in H by (cbn; tauto || (intros Hx; apply Ha; rewrite Hx; cbn; tauto)).
        inversion H; subst. now left.
Qed.
Print Assumptions C38_html_reported.

(** On components the modifiers of four directives do not matter. *)
Lemma idle_path a a' : other_modifier a a' -> a = a' \/ exists d d', a = ADir d /\ a' = ADir d' /\ d_dir d = d_dir d' /\
    String.eqb (ident_to_string (d_dir d)) "clone" = false /\ directive_to_any_attr_path d = directive_to_any_attr_path d'.
Proof.
  intros [b|n k m m' v Hn]; [now left|]. right. eexists _, _. split; [reflexivity|]. split; [reflexivity|].
  split; [reflexivity|]. cbn in Hn. destruct Hn as [<-|[<-|[<-|[<-|[]]]]]; split; reflexivity.
Qed.
Lemma idle_modifiers_loop slot l l' : Forall2 other_modifier l l' ->
  forall acc, component_attr_loop slot l acc = component_attr_loop slot l' acc.
Proof.
  induction 1 as [|a a' l l' Ha Hl IH]; intros [[props dirs] clones]; [reflexivity|].
  destruct (idle_path _ _ Ha) as [<-|(d & d' & -> & -> & Hd & Hc & Hp)]; cbn [component_attr_loop].
  - destruct a as [a|d|s].
    + apply xbind_ext. intros. apply IH.
    + destruct (String.eqb _ _); [apply xbind_ext; intros; apply xbind_ext; intros; apply IH|].
      destruct slot; [apply xbind_ext; intros; apply IH|]. destruct (directive_to_any_attr_path d); apply xbind_ext; intros; apply IH.
    + destruct slot; [apply xbind_ext; intros; apply IH|apply IH].
  - rewrite <- Hd, Hc, <- Hp. destruct slot; [apply xbind_ext; intros; apply IH|].
    destruct (directive_to_any_attr_path d); apply xbind_ext; intros; apply IH.
Qed.
Lemma idle_modifiers_same E b e e' : idle_modifiers e e' -> elem_same E b e e'.
Proof.
  intros [e0|p sels attrs attrs' args ch H] at_; [reflexivity|]. rewrite !expand_element_eq.
  assert (Hx : forall attrs, xml_to_tokens (TagComponent p) sels attrs (option_map (expand_nodes E at_ 0) ch) = None) by reflexivity.
  unfold element_tokens. rewrite !Hx. unfold component_to_tokens.
  destruct b; cbn [expect_path]; (apply xbind_ext; intros p'; apply xbind_ext; intros dirs0;
    now rewrite (idle_modifiers_loop _ _ _ H)).
Qed.
Theorem C38_component_ignored E input cs input' cs' :
  env_ok E -> wf input -> wf input' -> children_phrase E input cs -> children_phrase E input' cs' ->
  lift_list idle_modifiers cs cs' -> mview E input = mview E input'.
Proof. apply lift_mview. apply idle_modifiers_same. Qed.
Print Assumptions C38_component_ignored.

(** This differs from what tests/ui/errors/invalid_directive.stderr records. *)
Theorem C38_refuted : exists input d m out,
  mview E0 input = Expanded out /\ (exists e, used (tree_of input) false e /\ In (ADir d) (el_attrs e)) /\
  d_dir d = Id false "class" /\ d_modifier d = Some m.
Proof.
  exists (lex "C class:a:b={c} { }"). do 3 eexists. split; [vm_compute; reflexivity|].
  split; [eexists; split; [apply used_root; vm_compute; left; reflexivity|left; reflexivity]|]. split; reflexivity.
Qed.
Print Assumptions C38_refuted.

Example C38_case : expands E0 sample sample_cs sample_out /\ used sample_cs false sample_html /\
  (exists d, In (ADir d) (el_attrs sample_html) /\ d_modifier d <> None).
Proof.
  split; [apply sample_expands|]. split; [apply sample_html_used|]. 
  exists (Directive (Id false "on") (KKebab (Kebab "click" 1)) (Some (Id false "undelegated")) (Some (VBlock (lex "f")))).
  split; [vm_compute; auto 10|discriminate].
Qed.
Example C38_reported_case :
  let input := lex "div class:a:b=1 on:c:d={e} use:f:g attr:h:i=1 j:k:l;" in
  built E0 input (tree_of input) /\ no_root_slot (tree_of input) /\
  mview E0 input = Errors [DModifier; DUnknownOnModifier; DModifier; DNotOnElements "attr"; DUnknownDirective].
Proof.
  intros input. split; [eexists _, _; vm_compute; reflexivity|]. split; [|vm_compute; reflexivity].
  intros e H. vm_compute in H. intuition discriminate.
Qed.
Example C38_component_case :
  let a := lex "C class:a:b={c} attr:d:e=1 on:f:undelegated={g};" in let b := lex "C class:a={c} attr:d:h=1 on:f:undelegated={g};" in
  wf a /\ wf b /\ children_phrase E0 a (tree_of a) /\ children_phrase E0 b (tree_of b) /\ tree_of a <> tree_of b /\
  lift_list idle_modifiers (tree_of a) (tree_of b) /\ exists out, mview E0 a = Expanded out.
Proof.
  intros a b. assert (Ha : expands E0 a (tree_of a) (out_of a)) by (apply case_expands; vm_compute; reflexivity).
  assert (Hb : expands E0 b (tree_of b) (out_of b)) by (apply case_expands; vm_compute; reflexivity).
  destruct Ha as (_ & ? & ? & ?). destruct Hb as (_ & ? & ? & ?).
  repeat match goal with |- _ /\ _ => split end; eauto.
  - vm_compute. discriminate.
  - vm_compute. apply lift_element; [|constructor]. apply lift_intro; [|constructor]. apply idlem_component.
    constructor; [apply om_ignored; cbn; tauto|]. constructor; [apply om_ignored; cbn; tauto|]. constructor; [apply om_same|constructor].
Qed.
