(** Reading code back: frames of elements, slots, and whole trees. *)
From Verif Require Import Ast SpecStr SpecGrammar SpecOut SpecEqual EqualFacts EqualFacts2.
From Coq Require Import Permutation.
Open Scope list_scope.

(** ** Calls of HTML elements *)

Definition rank (c : call) : nat :=
  match c with
  | Call (Id true _) _ => 0
  | Call (Id false n) args =>
      if String.eqb n "node_ref" then 0
      else if String.eqb n "attr" then 0
      else if String.eqb n "id" then 3
      else if String.eqb n "add_any_attr" then 4
      else if String.eqb n "child" then 5
      else match args with [TGroup Paren (TGroup _ _ :: _)] => 2 | _ => 1 end
  end.
Definition ranked (n : nat) (l : list call) : Prop := Forall (fun c => rank c = n) l.

Lemma attr_rank k l c : Forall2 (html_attr_call k) l c -> ranked 0 c.
Proof.
  induction 1 as [|a x l c Ha Hl IH]; constructor; [|exact IH]. destruct Ha as [| |a v i _ _ [_ ->] _]; reflexivity.
Qed.
Lemma event_first k m ev : event_code k m ev -> exists r, ev = TPunct ":" Joint :: r.
Proof. intros []; eexists; reflexivity. Qed.
Lemma dir_rank l c : Forall2 html_dir_call l c -> ranked 1 c.
Proof.
  induction 1 as [|a x l c Ha Hl IH]; constructor; [|exact IH].
  destruct Ha as [n k v ts [-> | ->] Hv|k v ts Hv|k m v ev ts He Hv|k v ts Hu]; try reflexivity.
  - destruct (event_first _ _ _ He) as (r & ->). reflexivity.
  - destruct Hu; reflexivity.
Qed.
Lemma class_rank l : ranked 2 (map class_call l).
Proof. induction l; constructor; [reflexivity|assumption]. Qed.
Lemma id_rank l : ranked 3 (map id_call l).
Proof. induction l; constructor; [reflexivity|assumption]. Qed.
Lemma spread_rank l : ranked 4 (map spread_call l).
Proof. induction l; constructor; [reflexivity|assumption]. Qed.
Lemma child_rank l : ranked 5 (map child_call l).
Proof. induction l; constructor; [reflexivity|assumption]. Qed.

Lemma rank_is n l : ranked n l -> Forall (fun c => Nat.eqb (rank c) n = true) l.
Proof. induction 1 as [|c l H Hl IH]; constructor; [now rewrite H, Nat.eqb_refl|exact IH]. Qed.
Lemma rank_not n m l : n <> m -> ranked m l -> Forall (fun c => Nat.eqb (rank c) n = false) l.
Proof.
  intros Hn. induction 1 as [|c l H Hl IH]; constructor; [|exact IH]. rewrite H. apply Nat.eqb_neq. congruence.
Qed.

Lemma name_block_inj k l : name_block k = name_block l -> k = l.
Proof.
  destruct k as [s m], l as [t n]. unfold name_block. cbn. intros H. injection H as H.
  revert n H. induction m as [|m IH]; intros [|n] H; cbn in H.
  - injection H as ->. reflexivity.
  - discriminate.
  - discriminate.
  - injection H as H. apply IH in H. now injection H as -> ->.
Qed.
Lemma class_call_inj a b : class_call a = class_call b -> a = b.
Proof.
  intros E. apply name_block_inj.
  exact (f_equal (fun c => match call_args c with [TGroup _ (t :: _)] => t | _ => name_block a end) E).
Qed.
Lemma id_call_inj a b : id_call a = id_call b -> a = b.
Proof.
  intros E. apply name_block_inj.
  exact (f_equal (fun c => match call_args c with [t] => t | _ => name_block a end) E).
Qed.
Lemma map_inj {A B} (f : A -> B) l m : (forall a b, f a = f b -> a = b) -> map f l = map f m -> l = m.
Proof.
  intros H. revert m. induction l as [|a l IH]; intros [|b m] E; try discriminate; [reflexivity|].
  cbn in E. injection E as E1 E2. f_equal; auto.
Qed.

Lemma html_calls_inj kvs dirs cl ids sp codes kvs' dirs' cl' ids' sp' codes' :
  ranked 0 kvs -> ranked 0 kvs' -> ranked 1 dirs -> ranked 1 dirs' ->
  kvs ++ dirs ++ map class_call cl ++ map id_call ids ++ map spread_call sp ++ map child_call codes =
  kvs' ++ dirs' ++ map class_call cl' ++ map id_call ids' ++ map spread_call sp' ++ map child_call codes' ->
  kvs = kvs' /\ dirs = dirs' /\ cl = cl' /\ ids = ids' /\ sp = sp' /\ codes = codes'.
Proof.
  intros K K' D D' H.
  pose proof (class_rank cl) as C. pose proof (class_rank cl') as C'.
  pose proof (id_rank ids) as I. pose proof (id_rank ids') as I'.
  pose proof (spread_rank sp) as S. pose proof (spread_rank sp') as S'.
  pose proof (child_rank codes) as Z. pose proof (child_rank codes') as Z'.
  apply (group_split (fun c => Nat.eqb (rank c) 0)) in H as [-> H];
    try (now apply rank_is); try (repeat (apply Forall_app; split); (eapply rank_not; [|eassumption]; discriminate)).
  apply (group_split (fun c => Nat.eqb (rank c) 1)) in H as [-> H];
    try (now apply rank_is); try (repeat (apply Forall_app; split); (eapply rank_not; [|eassumption]; discriminate)).
  apply (group_split (fun c => Nat.eqb (rank c) 2)) in H as [Hc H];
    try (now apply rank_is); try (repeat (apply Forall_app; split); (eapply rank_not; [|eassumption]; discriminate)).
  apply (group_split (fun c => Nat.eqb (rank c) 3)) in H as [Hi H];
    try (now apply rank_is); try (repeat (apply Forall_app; split); (eapply rank_not; [|eassumption]; discriminate)).
  apply (group_split (fun c => Nat.eqb (rank c) 4)) in H as [Hs H];
    try (now apply rank_is); try (repeat (apply Forall_app; split); (eapply rank_not; [|eassumption]; discriminate)).
  apply map_inj in Hc; [|exact class_call_inj].
  apply map_inj in Hi; [|exact id_call_inj].
  apply map_inj in Hs; [|intros a b E; now injection E].
  apply map_inj in H; [|intros a b E; now injection E].
  repeat split; assumption.
Qed.

(** ** Fragments and children *)

Lemma rendered_inj a b : rendered a = rendered b -> a = b.
Proof. intros H. now injection H. Qed.
Lemma rendered_no_comma a : ~ In (sym ",") (rendered a).
Proof. intros H. cbn in H. intuition discriminate. Qed.
Lemma nodes_no_comma l codes : nodes_code l codes -> Forall (fun x => ~ In (sym ",") x) codes.
Proof. induction 1; try assumption; constructor; try assumption; apply rendered_no_comma. Qed.

Definition clean_codes (codes : list (list tt)) : Prop := Forall (fun x => ~ In (sym ",") x) codes.

Lemma fragment_inj a b : clean_codes a -> clean_codes b -> fragment a = fragment b -> a = b.
Proof. intros Ha Hb H. injection H as H. now apply comma_ended_inj. Qed.
Lemma fragment_end x y a b : clean_codes a -> clean_codes b ->
  x ++ fragment a = y ++ fragment b -> x = y /\ a = b.
Proof.
  intros Ha Hb. unfold fragment. rewrite !app_assoc. intros H. apply app_inj_tail in H as [H E].
  injection E as E. apply comma_ended_inj in E; try assumption. apply app_inv_tail in H. now split.
Qed.

Lemma clones_inj ds cl ds' cl' x y : Forall2 clone_code ds cl -> Forall2 clone_code ds' cl' ->
  (forall r, x <> word "let" :: r) -> (forall r, y <> word "let" :: r) ->
  List.concat cl ++ x = List.concat cl' ++ y -> cl = cl' /\ x = y.
Proof.
  intros H. revert ds' cl'. induction H as [|d c ds cl Hd Hl IH]; intros ds' cl' H' Hx Hy E.
  - destruct H' as [|d' c' ds' cl' Hd' Hl']; [now split|]. exfalso. destruct Hd'. cbn in E. eapply Hx. exact E.
  - destruct H' as [|d' c' ds' cl' Hd' Hl'].
    + exfalso. destruct Hd. cbn in E. eapply Hy. symmetry. exact E.
    + cbn in E. destruct Hd as [k i Hi], Hd' as [k' i' Hi']. cbn in E. injection E as E1 _ E.
      subst i'. destruct (IH _ _ Hl' Hx Hy E) as [-> ->]. now split.
Qed.

Lemma children_calls_inj ds ds' a cl codes a' cl' codes' :
  Forall2 clone_code ds cl -> Forall2 clone_code ds' cl' -> clean_codes codes -> clean_codes codes' ->
  children_calls a cl codes = children_calls a' cl' codes' ->
  codes = codes' /\ (codes = [] \/ a = a' /\ cl = cl').
Proof.
  intros Hd Hd' Hc Hc' H. unfold children_calls in H.
  destruct codes as [|c codes], codes' as [|c' codes']; try discriminate; [split; [reflexivity|now left]|].
  injection H as H. eapply clones_inj in H; [|exact Hd|exact Hd'|destruct a; discriminate|destruct a'; discriminate].
  destruct H as [-> H]. destruct a as [a|], a' as [a'|]; try discriminate.
  - injection H as H. apply fragment_end in H as [-> H]; try assumption. split; [exact H|]. right. now split.
  - injection H as H. apply comma_ended_inj in H; try assumption. split; [exact H|]. right. now split.
Qed.

(** ** Calls of components *)

Definition crank (c : call) : nat :=
  match c with
  | Call (Id true _) (TPunct _ _ :: _) => 2
  | Call (Id true _) _ => 0
  | Call (Id false _) _ => 1
  end.
Definition cranked (n : nat) (l : list call) : Prop := Forall (fun c => crank c = n) l.
Lemma crank_is n l : cranked n l -> Forall (fun c => Nat.eqb (crank c) n = true) l.
Proof. induction 1 as [|c l H Hl IH]; constructor; [now rewrite H, Nat.eqb_refl|exact IH]. Qed.
Lemma crank_not n m l : n <> m -> cranked m l -> Forall (fun c => Nat.eqb (crank c) n = false) l.
Proof.
  intros Hn. induction 1 as [|c l H Hl IH]; constructor; [|exact IH]. rewrite H. apply Nat.eqb_neq. congruence.
Qed.

Lemma prop_rank l c : Forall2 prop_call l c -> cranked 0 c.
Proof.
  induction 1 as [|a x l c Ha Hl IH]; constructor; [|exact IH]. destruct Ha as [a i v [_ ->] Hv].
  destruct (value_first _ _ Hv) as (t & r & -> & Ht). cbn. destruct t; try reflexivity. exfalso. now eapply Ht.
Qed.
Lemma children_rank a cl codes : cranked 1 (children_calls a cl codes).
Proof. destruct codes; repeat constructor. Qed.

(** The code of a slot says its name. *)
Definition slot_form (i : ident) (ts : list tt) : Prop := exists calls, ts = slot_frame [TIdent i] calls.
Definition slot_forms (slots : list (ident * list tt)) : Prop := Forall (fun p => slot_form (fst p) (snd p)) slots.

Lemma slots_forms l slots : slots_code l slots -> slot_forms slots.
Proof.
  induction 1 as [|v l slots Hl IH|e l slots Hl IH|e i ts l slots Ht He Hl IH]; try constructor; try assumption.
  destruct He as [p attrs args children path props clones codes sl scalls Hp]. cbn in Ht. injection Ht as ->.
  inversion Hp as [l' ts' Hs E1 E2|]; subst. inversion Hs as [|s ts' Hs' E1 E2|]; subst. inversion Hs'; subst.
  eexists. reflexivity.
Qed.

Lemma slot_frame_no_comma p calls : ~ In (sym ",") (slot_frame p calls).
Proof. intros H. cbn in H. intuition discriminate. Qed.
Lemma slot_frame_inj p calls q calls' : slot_frame p calls = slot_frame q calls' -> p = q /\ calls = calls'.
Proof.
  intros H. injection H as H. change ([word "builder"; parens []] ++ ?x) with (word "builder" :: parens [] :: x) in H.
  assert (A : forall x l, x ++ TPunct ":" Joint :: TPunct ":" Alone :: word "builder" :: parens [] :: chain l
              = (x ++ [TPunct ":" Joint; TPunct ":" Alone; word "builder"; parens []]) ++ chain l).
  { intros. now rewrite <- app_assoc. }
  rewrite !A in H. apply chain_split in H as [H1 H2].
  - apply app_inv_tail in H1. apply app_inj_tail in H2 as [H2 _]. now split.
  - change [TPunct ":" Joint; TPunct ":" Alone; word "builder"; parens []] with ([TPunct ":" Joint] ++ [TPunct ":" Alone; word "builder"; parens []]).
    rewrite app_assoc. apply no_call_dot. discriminate.
  - change [TPunct ":" Joint; TPunct ":" Alone; word "builder"; parens []] with ([TPunct ":" Joint] ++ [TPunct ":" Alone; word "builder"; parens []]).
    rewrite app_assoc. apply no_call_dot. discriminate.
Qed.

Lemma named_forms slots i : slot_forms slots -> Forall (slot_form i) (slots_named slots i).
Proof.
  induction 1 as [|[j ts] slots H Hl IH]; [constructor|]. unfold slots_named in *. cbn.
  destruct (ident_dec j i) as [-> |]; cbn; [constructor; assumption|exact IH].
Qed.
Lemma named_in slots i : In i (map fst slots) -> slots_named slots i <> [].
Proof.
  induction slots as [|[j ts] slots IH]; cbn; [easy|]. unfold slots_named in *. cbn.
  destruct (ident_dec j i) as [-> |Hn]; [discriminate|]. intros [H|H]; [congruence|now apply IH].
Qed.
Lemma named_out slots i : ~ In i (map fst slots) -> slots_named slots i = [].
Proof.
  induction slots as [|[j ts] slots IH]; cbn; [reflexivity|]. unfold slots_named in *. cbn. intros H.
  destruct (ident_dec j i) as [-> |Hn]; [exfalso; apply H; now left|]. apply IH. tauto.
Qed.

Lemma forms_no_comma i l : Forall (slot_form i) l -> Forall (fun x => ~ In (sym ",") x) l.
Proof.
  induction 1 as [|x l (calls & ->) Hl IH]; constructor; [apply slot_frame_no_comma|exact IH].
Qed.

Lemma slot_arg_inj i j l m : l <> [] -> m <> [] -> Forall (slot_form i) l -> Forall (slot_form j) m ->
  slot_arg l = slot_arg m -> l = m /\ i = j.
Proof.
  intros Hl Hm Fl Fm H.
  assert (E : l = m).
  { destruct l as [|x [|x' l]]; [now elim Hl| |]; (destruct m as [|y [|y' m]]; [now elim Hm| |]).
    - cbn in H. now rewrite H.
    - exfalso. inversion Fl as [|? ? (calls & ->)]; subst. discriminate H.
    - exfalso. inversion Fm as [|? ? (calls & ->)]; subst. discriminate H.
    - unfold slot_arg in H. injection H as H. apply comma_separated_inj; try discriminate;
        try (eapply forms_no_comma; eassumption). exact H. }
  split; [exact E|]. subst m. destruct l as [|x l]; [now elim Hl|].
  inversion Fl as [|? ? (calls & E1)]; inversion Fm as [|? ? (calls' & E2)]; subst.
  apply slot_frame_inj in E2 as [E2 _]. now injection E2.
Qed.

Lemma slot_calls_inj slots slots' calls : slot_forms slots -> slot_forms slots' ->
  slot_calls slots calls -> slot_calls slots' calls -> forall i, slots_named slots i = slots_named slots' i.
Proof.
  intros F F' [order c Hd Ho H] K. destruct K as [order' c Hd' Ho' K].
  assert (A : order = order' /\ Forall (fun i => slots_named slots i = slots_named slots' i) order).
  { assert (B : forall i, In i order -> In i (map fst slots)) by (intros i; apply Ho).
    assert (B' : forall i, In i order' -> In i (map fst slots')) by (intros i; apply Ho').
    clear Hd Ho Hd' Ho'. revert order' B' K. induction H as [|i x order c Hi Hl IH]; intros order' B' K; inversion K as [|j y order2 c2 Hj Hl2]; subst.
    - split; [reflexivity|constructor].
    - destruct Hi as [i m Hm Hr]. inversion Hj as [j' m' Hm' Hr' E1 E2]; subst.
      match goal with E : slot_arg _ = slot_arg _ |- _ => symmetry in E; rename E into E3 end.
      apply (slot_arg_inj i j) in E3 as [E3 ->]; try (now apply named_forms);
        try (apply named_in; [apply B|apply B']; now left); try (apply named_in; apply B'; now left); try (apply named_in; apply B; now left).
      destruct (IH (fun i Hi => B i (or_intror Hi)) order2 (fun i Hi => B' i (or_intror Hi)) Hl2) as [-> E4].
      split; [reflexivity|]. now constructor. }
  destruct A as [<- A]. intros i. rewrite Forall_forall in A.
  destruct (in_dec ident_dec i (map fst slots)) as [Hi|Hi].
  - apply A. now apply Ho.
  - rewrite !named_out; [reflexivity| |exact Hi]. intros Hi'. apply Hi. apply Ho, Ho'. exact Hi'.
Qed.

Lemma slot_rank slots calls : slot_forms slots -> slot_calls slots calls -> cranked 2 calls.
Proof.
  intros F [order c Hd Ho H]. clear Hd Ho. induction H as [|i x order c Hi Hl IH]; constructor; [|exact IH].
  destruct Hi as [i m Hm Hr]. pose proof (named_forms slots i F) as Fi. cbn.
  destruct (slots_named slots i) as [|a [|b l]]; try reflexivity.
  inversion Fi as [|? ? (cs & ->)]; subst. reflexivity.
Qed.

Lemma component_calls_inj props ch sc props' ch' sc' :
  cranked 0 props -> cranked 0 props' -> cranked 1 ch -> cranked 1 ch' -> cranked 2 sc -> cranked 2 sc' ->
  props ++ ch ++ sc = props' ++ ch' ++ sc' -> props = props' /\ ch = ch' /\ sc = sc'.
Proof.
  intros P P' C C' S S' H.
  apply (group_split (fun c => Nat.eqb (crank c) 0)) in H as [-> H];
    try (now apply crank_is); try (repeat (apply Forall_app; split); (eapply crank_not; [|eassumption]; discriminate)).
  apply (group_split (fun c => Nat.eqb (crank c) 1)) in H as [-> H];
    try (now apply crank_is); try (eapply crank_not; [|eassumption]; discriminate).
  now repeat split.
Qed.

Lemma component_frame_inj p c e p' c' e' : component_frame p c e = component_frame p' c' e' ->
  p = p' /\ c = c' /\ comma_ended e = comma_ended e'.
Proof.
  intros H.
  pose (inner := fun p c => sym "&" :: p ++ sym "," :: abs_path ["leptos"; "component"; "component_props_builder"] ++
              [parens (sym "&" :: p)] ++ chain (c ++ [plain_call "build" []])).
  assert (A : inner p c = inner p' c' /\ comma_ended e = comma_ended e').
  { split.
    - exact (f_equal (fun l => match nth 14 l (sym ".") with TGroup _ m => match nth 9 m (sym ".") with TGroup _ x => x | _ => [] end | _ => [] end) H).
    - exact (f_equal (fun l => match nth 14 l (sym ".") with TGroup _ m => match nth 12 m (sym ".") with TGroup _ [TGroup _ x] => x | _ => [] end | _ => [] end) H). }
  destruct A as [A E]. clear H.
  assert (B : forall p c, inner p c = ((sym "&" :: p ++ sym "," :: dcolon ++ word "leptos" :: dcolon ++ word "component" :: [TPunct ":" Joint])
                 ++ [TPunct ":" Alone; word "component_props_builder"; parens (sym "&" :: p)]) ++ chain (c ++ [plain_call "build" []])).
  { intros q d. unfold inner. cbn -[chain]. rewrite <- !app_assoc. cbn -[chain]. reflexivity. }
  rewrite !B in A. apply chain_split in A as [A1 A2]; try (apply no_call_dot; discriminate).
  apply app_inj_tail in A2 as [-> _]. 
  assert (C : forall (x : list tt) t u v, x ++ [t; u; v] = (x ++ [t; u]) ++ [v]) by (intros; now rewrite <- app_assoc).
  rewrite !C in A1. apply app_inj_tail in A1 as [_ A1]. injection A1 as ->. now repeat split.
Qed.

(** ** Trees *)

Scheme element_code_mind := Minimality for element_code Sort Prop
  with slot_code_mind := Minimality for slot_code Sort Prop
  with nodes_code_mind := Minimality for nodes_code Sort Prop
  with slots_code_mind := Minimality for slots_code Sort Prop.
Combined Scheme code_mutind from element_code_mind, slot_code_mind, nodes_code_mind, slots_code_mind.

Lemma called_codes l slots : slots_code l slots -> forall i, Forall2 slot_code (slots_called i l) (slots_named slots i).
Proof.
  induction 1 as [|v l slots Hl IH|e l slots Hl IH|e i ts l slots Ht He Hl IH]; intros j; cbn; [constructor|apply IH|apply IH|].
  rewrite Ht. unfold slots_named in *. cbn. destruct (ident_dec i j); cbn; [constructor; auto|apply IH].
Qed.

Lemma no_nodes l codes : nodes_code l codes -> codes = [] -> forallb is_slot l = true.
Proof. induction 1; intros E; try discriminate; [reflexivity|]. cbn. now apply IHnodes_code. Qed.
Lemma no_nodes_conv l codes : nodes_code l codes -> forallb is_slot l = true -> codes = [].
Proof. induction 1; intros E; try discriminate; [reflexivity|]. cbn in E. now apply IHnodes_code. Qed.

Lemma clone_inj a b c : clone_code a c -> clone_code b c -> equal_clone a b.
Proof.
  intros H K. destruct H; inversion K; subst. constructor. eapply ident_ok_name; eassumption.
Qed.
Lemma prop_inj a b c : prop_call a c -> prop_call b c -> equal_prop a b.
Proof.
  intros H K. destruct H; inversion K; subst. split; [eapply value_inj; eassumption|]. eapply ident_ok_name; eassumption.
Qed.

Lemma code_inj :
  (forall e ts, element_code e ts -> forall e', element_code e' ts -> equal_element e e') /\
  (forall e ts, slot_code e ts -> forall e', slot_code e' ts -> equal_slot e e') /\
  (forall l codes, nodes_code l codes -> forall l', nodes_code l' codes -> equal_nodes l l') /\
  (forall l slots, slots_code l slots -> forall i,
     Forall2 (fun e ts => forall e', slot_code e' ts -> equal_slot e e') (slots_called i l) (slots_named slots i)).
Proof.
  apply code_mutind.
  - intros t sels attrs args children head kvs dirs codes Hh Hk Hd Hc IH e' K.
    remember (head ++ chain (kvs ++ dirs ++ map class_call (classes_of sels) ++ map id_call (ids_of sels)
       ++ map spread_call (spreads_of attrs) ++ map child_call codes)) as ts eqn:E.
    destruct K as [t' sels' attrs' args' children' head' kvs' dirs' codes' Hh' Hk' Hd' Hc'|].
    + apply chain_split in E as [-> E]; try (eapply head_no_call; eassumption).
      pose proof (head_inj _ _ _ Hh Hh') as Ht.
      apply html_calls_inj in E as (-> & -> & E1 & E2 & E3 & ->);
        try (eapply attr_rank; eassumption); try (eapply dir_rank; eassumption).
      apply ee_html; try (now symmetry); try assumption.
      * rewrite <- (equal_tag_kind _ _ Ht) in Hk'. eapply forall2_both; [|exact Hk|exact Hk']. intros a b x. apply attr_inj.
      * eapply forall2_both; [|exact Hd|exact Hd']. intros a b x. apply dir_inj.
      * now apply IH.
    + exfalso. destruct Hh; discriminate E.
  - intros p sels attrs args children path props entries clones codes slots scalls Hp Hpr He Hcl Hn IHn Hs IHs Hsc e' K.
    remember (component_frame path (props ++ children_calls args clones codes ++ scalls) (selector_entries sels ++ entries)) as ts eqn:E.
    destruct K as [t' sels' attrs' args' children' head' kvs' dirs' codes' Hh'
      |p' sels' attrs' args' children' path' props' entries' clones' codes' slots' scalls' Hp' Hpr' He' Hcl' Hn' Hs' Hsc'].
    + exfalso. destruct Hh'; discriminate E.
    + symmetry in E. apply component_frame_inj in E as (-> & E & E').
      pose proof (slot_rank _ _ (slots_forms _ _ Hs) Hsc) as R.
      pose proof (slot_rank _ _ (slots_forms _ _ Hs') Hsc') as R'.
      apply component_calls_inj in E as (-> & E & ->); try (eapply prop_rank; eassumption); try apply children_rank;
        try assumption.
      eapply children_calls_inj in E as [-> E]; try eassumption; try (eapply nodes_no_comma; eassumption).
      apply ee_component.
      * now exists path'.
      * eapply forall2_both; [|exact Hpr|exact Hpr']. intros a b x. apply prop_inj.
      * eapply items_inj; eassumption.
      * destruct E as [E|[-> ->]]; [left; eapply no_nodes; eassumption|right]. split; [reflexivity|].
        eapply forall2_both; [|exact Hcl|exact Hcl']. intros a b x. apply clone_inj.
      * now apply IHn.
      * intros i. eapply forall2_both; [|exact (IHs i)|]; [intros a b x H1 H2; exact (H1 b H2)|].
        rewrite (slot_calls_inj _ _ _ (slots_forms _ _ Hs) (slots_forms _ _ Hs') Hsc Hsc' i). now apply called_codes.
  - intros p attrs args children path props clones codes slots scalls Hp Hpr He Hcl Hn IHn Hs IHs Hsc e' K.
    remember (slot_frame path (props ++ children_calls args clones codes)) as ts eqn:E.
    destruct K as [p' attrs' args' children' path' props' clones' codes' slots' scalls' Hp' Hpr' He' Hcl' Hn' Hs' Hsc'].
    symmetry in E. apply slot_frame_inj in E as [-> E].
    assert (E0 : props ++ children_calls args clones codes ++ [] = props' ++ children_calls args' clones' codes' ++ [])
      by (now rewrite !app_nil_r).
    apply component_calls_inj in E0 as (-> & E0 & _); try (eapply prop_rank; eassumption); try apply children_rank; try constructor.
    eapply children_calls_inj in E0 as [-> E0]; try eassumption; try (eapply nodes_no_comma; eassumption).
    + now exists path'.
    + eapply forall2_both; [|exact Hpr|exact Hpr']. intros a b x. apply prop_inj.
    + eapply children_calls_inj in E0 as [-> E0]; try eassumption; try (eapply nodes_no_comma; eassumption).
      destruct E0 as [E0|[-> ->]]; [left; eapply no_nodes; eassumption|right]. split; [reflexivity|].
      eapply forall2_both; [|exact Hcl|exact Hcl']. intros a b x. apply clone_inj.
    + eapply children_calls_inj in E0 as [-> E0]; try eassumption; try (eapply nodes_no_comma; eassumption). now apply IHn.
  - intros l' K. remember [] as codes eqn:E. induction K; try discriminate; [constructor|]. apply eqn_right. now apply IHK.
  - intros v ts l codes Hv Hl IH l' K. remember (rendered ts :: codes) as all eqn:E. revert E.
    induction K as [|v' ts' l' codes' Hv' Hl' _|e' ts' l' codes' He' Hl' _|e' l' codes' Hl' IH']; intros E; try discriminate.
    + injection E as E ->. subst ts'. rewrite (value_inj _ _ _ Hv Hv'). apply eqn_value. now apply IH.
    + injection E as E ->. subst ts'. exfalso. destruct He' as [? ? ? ? ? ? ? ? ? Hh|]; [destruct Hh|]; inversion Hv.
    + apply eqn_right. now apply IH'.
  - intros e ts l codes He IHe Hl IH l' K. remember (rendered ts :: codes) as all eqn:E. revert E.
    induction K as [|v' ts' l' codes' Hv' Hl' _|e' ts' l' codes' He' Hl' _|e' l' codes' Hl' IH']; intros E; try discriminate.
    + injection E as E ->. subst ts'. exfalso. clear IHe. destruct He as [? ? ? ? ? ? ? ? ? Hh|]; [destruct Hh|]; inversion Hv'.
    + injection E as E ->. subst ts'. apply eqn_element; [now apply IHe|now apply IH].
    + apply eqn_right. now apply IH'.
  - intros e l codes Hl IH l' K. apply eqn_left. now apply IH.
  - intros i. constructor.
  - intros v l slots Hl IH i. apply IH.
  - intros e l slots Hl IH i. apply IH.
  - intros e i ts l slots Ht He IHe Hl IH j. cbn. rewrite Ht. unfold slots_named in *. cbn.
    destruct (ident_dec i j); cbn; [constructor; auto|apply IH].
Qed.

(** ** Equal trees have the same code *)

Lemma forall2_same {A B} (R : A -> B -> Prop) (Q : A -> A -> Prop) l m c :
  (forall a b x, Q a b -> R a x -> R b x) -> Forall2 Q l m -> Forall2 R l c -> Forall2 R m c.
Proof.
  intros H HQ. revert c. induction HQ as [|a b l m Hab Hl IH]; intros c Hc; inversion Hc; subst; constructor; eauto.
Qed.

Lemma prop_same a b c : equal_prop a b -> prop_call a c -> prop_call b c.
Proof.
  intros [H1 H2] H. destruct H as [a i v Hi Hv]. constructor; [eapply ident_ok_fun; eassumption|congruence].
Qed.
Lemma clone_same l m c c' : Forall2 equal_clone l m -> Forall2 clone_code l c -> Forall2 clone_code m c' ->
  Forall2 clone_code m c.
Proof.
  intros H. revert c c'. induction H as [|a b l m Hab Hl IH]; intros c c' Hc Hc'; inversion Hc as [|? ? ? ? Ha Hl1]; inversion Hc' as [|? ? ? ? Hb Hl2]; subst;
    [constructor|]. constructor; [|eapply IH; eassumption].
  destruct Ha as [k i Hi]. inversion Hb as [k' i' Hi']; subst. unfold equal_clone in Hab. cbn in Hab.
  inversion Hab; subst. constructor. eapply ident_ok_fun; eassumption.
Qed.

Lemma rebuild_slots l s : slots_code l s -> forall F : ident -> list (list tt),
  (forall i, Forall2 slot_code (slots_called i l) (F i)) ->
  exists s', slots_code l s' /\ forall i, slots_named s' i = F i.
Proof.
  induction 1 as [|v l s Hl IH|e l s Hl IH|e i ts l s Ht He Hl IH]; intros F H.
  - exists []. split; [constructor|]. intros i. specialize (H i). inversion H. reflexivity.
  - destruct (IH F H) as (s' & H1 & H2). exists s'. split; [now constructor|exact H2].
  - destruct (IH F H) as (s' & H1 & H2). exists s'. split; [now constructor|exact H2].
  - cbn in H. rewrite Ht in H.
    destruct (IH (fun j => if ident_dec i j then tl (F j) else F j)) as (s' & H1 & H2).
    + intros j. specialize (H j). destruct (ident_dec i j); [|exact H]. inversion H; subst. assumption.
    + pose proof (H i) as Hi. destruct (ident_dec i i) as [_|]; [|congruence].
      inversion Hi as [|? c ? r Hc Hr E1 E2]; subst. exists ((i, c) :: s'). split; [now apply slc_slot|].
      intros j. specialize (H2 j). unfold slots_named in *. cbn. destruct (ident_dec i j) as [-> |]; cbn; [|exact H2].
      rewrite H2, <- E2. reflexivity.
Qed.

Lemma named_nonempty s i : slots_named s i <> [] -> In i (map fst s).
Proof.
  intros H. destruct (in_dec ident_dec i (map fst s)) as [Hi|Hi]; [exact Hi|]. now rewrite (named_out _ _ Hi) in H.
Qed.
Lemma slot_calls_same s s' calls : (forall i, slots_named s' i = slots_named s i) ->
  slot_calls s calls -> slot_calls s' calls.
Proof.
  intros H [order c Hd Ho Hc]. exists order; [exact Hd| |].
  - intros i. rewrite Ho. split; intros Hi; apply named_nonempty.
    + rewrite H. now apply named_in.
    + rewrite <- H. now apply named_in.
  - eapply forall2_weaken; [|exact Hc]. intros i x [j m Hm Hr]. rewrite <- H. now constructor.
Qed.

Lemma seg_fun s a b : seg_code s a -> seg_code s b -> a = b.
Proof. intros H K. destruct H; inversion K; subst; reflexivity. Qed.
Lemma segs_fun l a b : segs_code l a -> segs_code l b -> a = b.
Proof.
  intros H. revert b. induction H as [|s ts Hs|s ts s' l ts' Hs Hl IH]; intros b K; inversion K; subst.
  - reflexivity.
  - eapply seg_fun; eassumption.
  - f_equal; [eapply seg_fun; eassumption|]. f_equal. now apply IH.
Qed.
Lemma path_fun p a b : path_code p a -> path_code p b -> a = b.
Proof.
  intros H K. destruct H; inversion K; subst; [|f_equal]; eapply segs_fun; eassumption.
Qed.

Lemma equal_no_nodes l l' : equal_nodes l l' -> forallb is_slot l = true -> forallb is_slot l' = true.
Proof. induction 1; cbn; intros E; try discriminate; auto. Qed.

Lemma code_same :
  (forall e ts, element_code e ts -> forall e' ts', equal_element e e' -> element_code e' ts' -> element_code e' ts) /\
  (forall e ts, slot_code e ts -> forall e' ts', equal_slot e e' -> slot_code e' ts' -> slot_code e' ts) /\
  (forall l codes, nodes_code l codes -> forall l' codes', equal_nodes l l' -> nodes_code l' codes' -> nodes_code l' codes) /\
  (forall l slots, slots_code l slots -> forall i,
     Forall2 (fun e ts => forall e' ts', equal_slot e e' -> slot_code e' ts' -> slot_code e' ts)
       (slots_called i l) (slots_named slots i)).
Proof.
  apply code_mutind.
  - intros t sels attrs args children head kvs dirs codes Hh Hk Hd Hc IH e' ts' Q K.
    inversion Q as [t0 sels0 attrs0 args0 children0 t' sels' attrs' args' children' Qt Qk Qd Qc Qi Qs Qn|]; subst.
    2: inversion Hh.
    inversion K as [t1 sels1 attrs1 args1 children1 head' kvs' dirs' codes' Hh' Hk' Hd' Hc'|]; subst.
    2: inversion Qt.
    rewrite Qc, Qi, Qs. constructor.
    + eapply head_fun; eassumption.
    + rewrite <- (equal_tag_kind _ _ Qt). eapply forall2_same; [|exact Qk|exact Hk]. intros a b x. apply attr_same.
    + eapply forall2_same; [|exact Qd|exact Hd]. intros a b x. apply dir_same.
    + eapply IH; eassumption.
  - intros p sels attrs args children path props entries clones codes slots scalls Hp Hpr He Hcl Hn IHn Hs IHs Hsc e' ts' Q K.
    inversion Q as [t0 sels0 attrs0 args0 children0 t' sels' attrs' args' children' Qt
      |p0 sels0 attrs0 args0 children0 p' sels' attrs' args' children' (pts & Qp & Qp') Qpr Qi Qa Qn Qs]; subst.
    1: inversion Qt.
    inversion K as [t1 sels1 attrs1 args1 children1 head' kvs' dirs' codes' Hh' Hk' Hd' Hc'
      |p1 sels1 attrs1 args1 children1 path' props' entries' clones' codes' slots' scalls' Hp' Hpr' He' Hcl' Hn' Hs' Hsc']; subst.
    1: inversion Hh'.
    assert (Ep : path = pts) by (eapply path_fun; eassumption). subst pts.
    assert (B : forall i, Forall2 slot_code (slots_called i (child_list children')) (slots_named slots i)).
    { intros i. specialize (IHs i). specialize (Qs i). pose proof (called_codes _ _ Hs' i) as Hk.
      revert IHs Hk. generalize (slots_named slots i), (slots_named slots' i). induction Qs as [|a b l m Hab Hl IH]; intros x y Hx Hy;
        inversion Hx as [|? ? ? ? Hx1 Hx2]; inversion Hy as [|? ? ? ? Hy1 Hy2]; subst; [constructor|]. constructor; [eapply Hx1; eassumption|eapply IH; eassumption]. }
    destruct (rebuild_slots _ _ Hs' _ B) as (s2 & Hs2 & E2).
    assert (C : children_calls args clones codes = children_calls args' (if forallb is_slot (child_list children) then clones' else clones) codes
       /\ Forall2 clone_code (clones_of attrs') (if forallb is_slot (child_list children) then clones' else clones)).
    { destruct (forallb is_slot (child_list children)) eqn:Ez.
      - rewrite (no_nodes_conv _ _ Hn Ez). now split.
      - destruct Qa as [Qa|[-> Qa]]; [congruence|]. split; [reflexivity|]. eapply clone_same; eassumption. }
    destruct C as [C1 C2]. rewrite C1. unfold component_frame. rewrite (items_same _ _ _ _ _ _ He He' Qi).
    apply (ec_component p' sels' attrs' args' children' path props entries' _ codes s2 scalls); try assumption.
    + eapply forall2_same; [|exact Qpr|exact Hpr]. intros a b x. apply prop_same.
    + eapply IHn; eassumption.
    + eapply slot_calls_same; [|exact Hsc]. exact E2.
  - intros p attrs args children path props clones codes slots scalls Hp Hpr He Hcl Hn IHn Hs IHs Hsc e' ts' Q K.
    inversion Q as [p0 sels0 attrs0 args0 children0 p' sels' attrs' args' children' (pts & Qp & Qp') Qpr Qa Qn]; subst.
    inversion K as [p1 attrs1 args1 children1 path' props' clones' codes' slots' scalls' Hp' Hpr' He' Hcl' Hn' Hs' Hsc']; subst.
    assert (Ep : path = pts) by (eapply path_fun; eassumption). subst pts.
    assert (C : children_calls args clones codes = children_calls args' (if forallb is_slot (child_list children) then clones' else clones) codes
       /\ Forall2 clone_code (clones_of attrs') (if forallb is_slot (child_list children) then clones' else clones)).
    { destruct (forallb is_slot (child_list children)) eqn:Ez.
      - rewrite (no_nodes_conv _ _ Hn Ez). now split.
      - destruct Qa as [Qa|[-> Qa]]; [congruence|]. split; [reflexivity|]. eapply clone_same; eassumption. }
    destruct C as [C1 C2]. rewrite C1.
    apply (sc_slot p' attrs' args' children' path props _ codes slots' scalls'); try assumption.
    + eapply forall2_same; [|exact Qpr|exact Hpr]. intros a b x. apply prop_same.
    + eapply IHn; eassumption.
  - intros l' codes' Q K. remember [] as l eqn:E. revert codes' K. induction Q; try discriminate; intros codes' K; [constructor|].
    inversion K; subst. constructor. eapply IHQ; [reflexivity|eassumption].
  - intros v ts l codes Hv Hl IH l' codes' Q K. remember (CValue v :: l) as l0 eqn:E. revert codes' K.
    induction Q as [|w l1 l' Q _|e e' l1 l' Qe Q _|e l1 l' Q _|e l1 l' Q IHQ]; try discriminate; intros codes' K.
    + injection E as -> ->. inversion K; subst. constructor; [exact Hv|]. eapply IH; eassumption.
    + inversion K; subst. constructor. eapply IHQ; [reflexivity|eassumption].
  - intros e ts l codes He IHe Hl IH l' codes' Q K. remember (CElement e :: l) as l0 eqn:E. revert codes' K.
    induction Q as [|w l1 l' Q _|e0 e' l1 l' Qe Q _|e0 l1 l' Q _|e0 l1 l' Q IHQ]; try discriminate; intros codes' K.
    + injection E as -> ->. inversion K; subst. constructor; [eapply IHe; eassumption|]. eapply IH; eassumption.
    + inversion K; subst. constructor. eapply IHQ; [reflexivity|eassumption].
  - intros e l codes Hl IH l' codes' Q K. remember (CSlot e :: l) as l0 eqn:E. revert codes' K.
    induction Q as [|w l1 l' Q _|e0 e' l1 l' Qe Q _|e0 l1 l' Q _|e0 l1 l' Q IHQ]; try discriminate; intros codes' K.
    + injection E as -> ->. eapply IH; eassumption.
    + inversion K; subst. constructor. eapply IHQ; [reflexivity|eassumption].
  - intros i. constructor.
  - intros v l slots Hl IH i. apply IH.
  - intros e l slots Hl IH i. apply IH.
  - intros e i ts l slots Ht He IHe Hl IH j. cbn. rewrite Ht. unfold slots_named in *. cbn.
    destruct (ident_dec i j); cbn; [constructor; auto|apply IH].
Qed.
