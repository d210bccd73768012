(** * The expander takes a number of steps linear in what was parsed: slots, elements, views *)
From Verif Require Export WorkXBound.
From Verif Require Import ExpandFacts2 WorkBound.
From Coq Require Import Lia Arith Permutation.
Open Scope list_scope.
Notation len := (@List.length tt) (only parsing).
Notation slen := String.length (only parsing).

(** ** Slots *)

(** Slots of one name share its method; the rest is paid slot by slot. *)
Definition c_entry (p : ident * list (list tt)) : nat := 130 + 7 * slen (i_name (fst p)) + c_dirs (snd p).
Lemma insert_cost m k t : sum c_entry (slot_insert m k t) <= sum c_entry m + (130 + 7 * slen (i_name k) + (2 + len t)).
Proof.
  assert (Hc : forall l, c_dirs (l ++ [t]) = c_dirs l + (2 + len t)) by (intros; unfold c_dirs; rewrite sum_app, sum_cons, sum_nil; lia).
  induction m as [|[k' l] m IH]; cbn [slot_insert].
  - rewrite sum_cons, !sum_nil. unfold c_entry. cbn [fst snd]. unfold c_dirs. rewrite sum_cons, sum_nil. lia.
  - destruct (ident_eqb k k'); rewrite !sum_cons; [|lia]. unfold c_entry. cbn [fst snd]. rewrite Hc. lia.
Qed.
Lemma get_entry m : NoDup (map fst m) -> sum c_entry m = sum (fun k => c_entry (k, slot_get m k)) (map fst m).
Proof.
  induction m as [|[k l] m IH]; intros H; [reflexivity|]. cbn [map fst] in *. inversion H as [|? ? Hn H']; subst. rewrite !sum_cons, (IH H'). cbn [slot_get].
  replace (ident_eqb k k) with true by (symmetry; now apply ident_eqb_iff). f_equal.
  apply Nat.le_antisymm; apply sum_le; intros a Ha; cbn [slot_get];
    (destruct (ident_eqb a k) eqn:He; [apply ident_eqb_iff in He; subst; contradiction|reflexivity]).
Qed.
Lemma snake_length s : slen (upper_camel_to_snake_case s) <= 2 * slen s.
Proof.
  unfold upper_camel_to_snake_case. generalize true. induction s as [|c s IH]; intros b; cbn [camel_loop]; [apply le_n|].
  specialize (IH false). destruct (is_upper c && negb b); cbn [String.length]; lia.
Qed.
Lemma commas_steps l : quote_steps (commas l) <= c_dirs l.
Proof.
  induction l as [|x l IH]; [apply le_n|]. unfold c_dirs in *. rewrite sum_cons. destruct l as [|y l]; [cbn [commas]; count; rewrite sum_nil; lia|].
  change (commas (x :: y :: l)) with ([Splice x; Tok (pu ",")] ++ commas (y :: l)). rewrite steps_app. count. lia.
Qed.
Lemma b_slot_method k l : costs (w_slot_method k l) (c_entry (k, l)) (fun ts => len ts <= 3).
Proof.
  unfold w_slot_method. cbv zeta. assert (Hs := snake_length (i_name (unraw k))).
  assert (Hk : i_name (unraw k) = i_name k) by reflexivity. rewrite Hk in *. unfold c_entry. cbn [fst snd].
  apply costs_pay_then; [lia|]. unfold new_raw. destruct (existsb _ _); [apply costs_panic; lia|].
  assert (Hc := commas_steps l).
  eapply costs_bind with (n := 110 + 2 * slen (i_name k) + c_dirs l) (P := fun ts => len ts <= 3).
  - assert (Hm : forall c n, quote_steps c <= n -> costs (quote (q_method (Id true (upper_camel_to_snake_case (i_name k)))
                 (fixed ([pu "<"; TGroup Bracket [kw "_"]; pu ">"] ++ colon2 ++ [kw "into_vec"]) ++
                  [Grp Paren (fixed (gpath ["std"; "boxed"; "Box"; "new"]) ++ [Grp Paren [Grp Bracket c]])])))
                (110 + 2 * slen (i_name k) + n) (fun ts => len ts <= 3)).
    { intros c n Hn. apply costs_quote; [count; cbn [i_name]; lia|quoted; cbn; lia]. }
    destruct l as [|s [|s' l]].
    + apply Hm, Hc.
    + unfold c_dirs in *. rewrite sum_cons, sum_nil in *. apply costs_quote; [count; cbn [i_name]; lia|quoted; cbn; lia].
    + apply Hm, Hc.
  - lia.
  - intros r Hr. apply costs_extend_then; [li|]. apply costs_ret. exact Hr.
Qed.

(** A slot: the steps of collecting it, and its share of the methods. *)
Definition c_slot (t : tag) : nat := match t with TagComponent p => 3 + 2 * c_path p | _ => 1 end.
Definition e_slot (t : tag) : nat := match t with TagComponent p => 145 + 7 * c_path p | _ => 0 end.
Definition slot_ok (p : tag * WX (list tt)) (c : nat) : Prop := costs (snd p) c (fun ts => len ts = 13).
Lemma ident_path p i : get_ident p = Some i -> slen (i_name i) <= c_path p.
Proof.
  intros H. apply get_ident_iff in H. subst. unfold c_path, path_tokens. cbn [leading segs segs_tokens app].
  unfold seg_tokens. cbn [seg_ident seg_args]. rewrite weight_cons, weigh_ident. lia.
Qed.
Lemma insert_length m k t : List.length (slot_insert m k t) <= S (List.length m).
Proof. induction m as [|[k' l] m IH]; cbn [slot_insert]; [apply le_n|]. destruct (ident_eqb k k'); cbn [List.length]; lia. Qed.
Lemma b_collect l cs : Forall2 slot_ok l cs -> forall m, NoDup (map fst m) ->
  costs (w_collect_slots l m) (sum (fun c => c) cs + sum (fun p => c_slot (fst p)) l)
    (fun m' => NoDup (map fst m') /\ List.length m' <= List.length m + List.length l /\
       sum c_entry m' <= sum c_entry m + sum (fun p => e_slot (fst p)) l).
Proof.
  induction 1 as [|[t x] c l cs Hx H IH]; intros m Hm; cbn [w_collect_slots].
  - apply costs_ret. rewrite !sum_nil. split; [exact Hm|]. cbn [List.length]. lia.
  - rewrite !sum_cons. unfold slot_ok in Hx. cbn [fst snd] in *. destruct t as [i|p|i|i|k]; cbn [c_slot e_slot]; try (apply costs_panic; lia).
    destruct (get_ident p) as [i|] eqn:Hi.
    + assert (Hp := ident_path _ _ Hi). eapply costs_bind; [apply Hx|lia|]. intros ts Hts.
      apply costs_pay_then; [unfold compare_steps; lia|].
      eapply costs_le; [apply IH, insert_nodup, Hm|unfold compare_steps; lia|]. cbn beta. intros m' (H1 & H2 & H3).
      assert (H4 := insert_cost m i ts). assert (H5 := insert_length m i ts). split; [exact H1|]. cbn [List.length]. li.
    + cbn [tag_span_steps]. fold (c_path p). apply costs_pay_then; [lia|]. apply costs_emit_then; [lia|].
      eapply costs_le; [apply IH, Hm|lia|]. cbn beta. intros m' (H1 & H2 & H3). split; [exact H1|]. cbn [List.length]. lia.
Qed.
Lemma b_slots E at_ l cs : env_ok E -> Forall2 slot_ok l cs ->
  costs (w_slots_to_tokens E at_ l) (sum (fun c => c) cs + sum (fun p => 1 + c_slot (fst p) + e_slot (fst p)) l)
    (fun ts => len ts <= 3 * List.length l).
Proof.
  intros (_ & _ & HE) H. unfold w_slots_to_tokens.
  assert (Hs : sum (fun p : tag * WX (list tt) => 1 + c_slot (fst p) + e_slot (fst p)) l =
    List.length l + sum (fun p => c_slot (fst p)) l + sum (fun p => e_slot (fst p)) l).
  { rewrite sum_plus, sum_plus, sum_const. lia. }
  eapply costs_bind; [apply (b_collect _ _ H []); constructor|lia|]. cbn [List.length]. rewrite sum_nil.
  intros m (H1 & H2 & H3). assert (HP := HE at_ (map fst m)).
  eapply costs_bind with (n := sum c_entry m + List.length m) (P := fun r => Forall (fun ts => len ts <= 3) r /\ List.length r = List.length m).
  - eapply costs_le; [apply (Forall2_seq _ (map (fun k => c_entry (k, slot_get m k)) (slot_order E at_ (map fst m))) (fun ts => len ts <= 3))| |].
    + generalize (slot_order E at_ (map fst m)). intros ks. induction ks as [|k ks IH]; cbn [map]; constructor; [apply b_slot_method|exact IH].
    + rewrite sum_map, (sum_perm _ _ _ (Permutation_sym HP)). change (fun a => S (c_entry (a, slot_get m a))) with (fun a => 1 + c_entry (a, slot_get m a)).
      rewrite sum_plus, sum_const, map_length, <- (get_entry m H1). lia.
    + intros r [Hr1 Hr2]. split; [exact Hr1|]. rewrite Hr2, map_length, <- (Permutation_length HP), map_length. reflexivity.
  - lia.
  - intros r [Hr1 Hr2]. apply costs_ret. rewrite length_concat.
    assert (Hl : sum len r <= sum (fun _ => 3) r). { apply sum_le. intros a Ha. rewrite Forall_forall in Hr1. now apply Hr1. }
    rewrite sum_const in Hl. lia.
Qed.

(** ** Elements *)

Definition c_sels (sels : list selector) : nat := sum c_sel sels.
Definition o_attrs (attrs : list attr) : nat := sum o_attr attrs.
Definition c_attrs (attrs : list attr) : nat := sum c_attr attrs.

Lemma b_xml t sels attrs nodes cs m : w_xml_to_tokens t sels attrs nodes = Some m ->
  match nodes with Some ns => Forall2 node_ok ns cs | None => cs = [] end ->
  costs m (30 + c_tag t + 6 * List.length sels + c_sels sels + c_attrs attrs + o_attrs attrs + sum (fun c => 33 + c) cs)
    (fun ts => len ts <= 16 + 3 * List.length sels + o_attrs attrs + 3 * List.length cs).
Proof.
  unfold w_xml_to_tokens. destruct (w_xml_tag_path t) as [tp|] eqn:Ht; [|discriminate]. intros H. injection H as <-. intros Hn.
  apply b_tag_path in Ht. destruct Ht as [Ht Ht'].
  assert (Hs : sum (fun c => 33 + c) cs = 3 * List.length cs + sum (fun c => 30 + c) cs).
  { rewrite <- sum_const, <- sum_plus. apply Nat.le_antisymm; apply sum_le; intros; lia. }
  eapply costs_bind; [apply Ht|lia|]. intros tp' Htp.
  assert (Hsel : 2 + sum (fun s => 50 + 18 * k_spans (sel_kebab s) + slen (k_repr (sel_kebab s))) sels <= 2 + c_sels sels).
  { apply le_n_S, le_n_S. apply sum_le. intros s _. unfold c_sel. lia. }
  eapply costs_bind; [apply b_xml_selectors|lia|]. intros sel Hsl.
  eapply costs_bind; [apply (b_xml_loop (kind_of t) attrs [] [] [])|unfold c_attrs; lia|]. intros [[kvs dirs] sps] Hl. cbn [List.length] in Hl.
  eapply costs_bind with (n := sum (fun c => 30 + c) cs) (P := fun ts => len ts = 3 * List.length cs).
  - destruct nodes as [ns|]; [apply (b_xml_children _ _ Hn)|]. apply costs_ret. now rewrite Hn.
  - unfold c_attrs; lia.
  - intros ch Hch. apply costs_quote.
    + cbn [map]. count. unfold c_attrs, o_attrs. li.
    + cbn [map]. quoted. rewrite !app_length. unfold o_attrs. li.
Qed.

Lemma sum_shift {A} n (f : A -> nat) l : sum (fun c => n + f c) l = n * List.length l + sum f l.
Proof. now rewrite sum_plus, sum_const. Qed.
Lemma sum_le_eq {A} (f g : A -> nat) l : (forall a, f a = g a) -> sum f l = sum g l.
Proof. intros H. apply Nat.le_antisymm; apply sum_le; intros a _; rewrite H; apply le_n. Qed.
Lemma b_component E at_ slot t sels attrs args nodes cs slots ds : env_ok E ->
  match nodes with Some ns => Forall2 node_ok ns cs | None => cs = [] end ->
  match slots with Some l => Forall2 slot_ok l ds | None => ds = [] end ->
  costs (w_expect_path (w_component_to_tokens E at_ slot t sels attrs args nodes slots))
    (800 + c_tag t + 21 * List.length sels + c_sels sels + c_attrs attrs + 2 * o_attrs attrs + c_args args + sum (fun c => 16 + c) cs
     + sum (fun c => c) ds + match slots with Some l => sum (fun p => 4 + c_slot (fst p) + e_slot (fst p)) l | None => 0 end)
    (fun ts => len ts = if slot then 13 else 15).
Proof.
  intros HE Hn Hs. unfold w_component_to_tokens. destruct t as [i|p|i|i|k]; cbn [w_expect_path]; try (apply costs_panic; lia).
  cbn [c_tag].
  eapply costs_bind; [apply b_turbofish|lia|]. intros p' Hp'. cbn beta in Hp'. fold (c_path p').
  eapply costs_bind with (n := 1 + c_sels sels) (P := fun dirs => c_dirs dirs <= 21 * List.length sels).
  { destruct slot; [|eapply costs_le; [apply b_component_selectors|unfold c_sels; lia|auto]].
    destruct sels; [apply costs_ret; cbn; lia|]. apply costs_emit_then; [lia|]. apply costs_ret. cbn. lia. }
  { lia. }
  intros dirs0 Hd0. cbn beta in Hd0.
  eapply costs_bind; [apply (b_component_loop slot attrs [] dirs0 [])|unfold c_attrs; lia|]. intros [[props dirs] clones] Hl. cbn [List.length] in Hl. fold (o_attrs attrs) in Hl. fold (c_attrs attrs).
  set (S1 := sum (fun c => 16 + c) cs) in *. set (S2 := sum (fun c => c) ds) in *.
  eapply costs_bind with (n := 230 + c_args args + len clones + S1) (P := fun ts => len ts <= 3).
  { destruct nodes as [ns|]; [|apply costs_ret; cbn; lia]. destruct ns as [|n ns]; [apply costs_ret; cbn; lia|].
    eapply costs_le; [apply (b_component_children _ _ _ _ Hn)|unfold S1; lia|]. intros; li. }
  { lia. }
  intros ch Hch. cbn beta in Hch.
  pose (S3 := match slots with Some l => sum (fun p => 1 + c_slot (fst p) + e_slot (fst p)) l | None => 0 end).
  pose (ns := match slots with Some l => List.length l | None => 0 end).
  assert (H3 : match slots with Some l => sum (fun p => 4 + c_slot (fst p) + e_slot (fst p)) l | None => 0 end = 3 * ns + S3).
  { unfold ns, S3. destruct slots as [l|]; [|reflexivity]. rewrite <- sum_shift. reflexivity. }
  rewrite H3.
  eapply costs_bind with (n := S2 + S3) (P := fun ts => len ts <= 3 * ns).
  { unfold S3, ns. destruct slots as [l|]; [apply (b_slots _ _ _ _ HE Hs)|]. apply costs_ret. cbn. lia. }
  { lia. }
  intros sl Hsl. cbn beta in Hsl. clearbody S1 S2 S3 ns.
  apply costs_pay_then; [lia|].
  eapply costs_bind with (n := 15) (P := fun ts => len ts = 3); [apply costs_quote; [count; cbn; lia|quoted; reflexivity]|lia|]. intros bd Hbd. cbn beta in Hbd.
  assert (Hw : len (path_tokens p') <= c_path p') by apply length_weight.
  destruct slot.
  - apply costs_quote; [cbn [map]; count; lia|]. quoted. reflexivity.
  - apply costs_pay_then; [lia|].
    eapply costs_bind with (n := 80 + c_path p') (P := fun ts => len ts = 10); [apply costs_quote; [count; lia|quoted; reflexivity]|lia|]. intros pb Hpb. cbn beta in Hpb.
    apply costs_quote; [|quoted; reflexivity]. cbn [map]. count. rewrite each_steps. lia.
Qed.

(** Tokens that an element leaves. *)
Definition o_elem (e : element) : nat :=
  match e with Element _ sels attrs _ ch => 16 + 3 * List.length sels + o_attrs attrs + 3 * List.length (child_list ch) end.
(** What an element costs, apart from its children. *)
Definition c_head (t : tag) (sels : list selector) (attrs : list attr) (args : option (list tt)) : nat :=
  850 + c_tag t + 24 * List.length sels + c_sels sels + c_attrs attrs + 3 * o_attrs attrs + c_args args.
(** An element; what turning the result into a child costs is charged to the child. *)
Fixpoint c_elem (e : element) : nat :=
  match e with
  | Element t sels attrs args ch =>
      c_head t sels attrs args +
      match ch with
      | Some l =>
          sum (fun c => match c with
                        | CValue v => 150 + c_value v
                        | CElement e => 124 + tag_span_steps (el_tag e) + 2 * o_elem e + c_elem e
                        | CSlot e => 10 + c_slot (el_tag e) + e_slot (el_tag e) + c_elem e
                        end) l
      | None => 0
      end
  end.
Definition c_child (c : child) : nat :=
  match c with
  | CValue v => 150 + c_value v
  | CElement e => 124 + tag_span_steps (el_tag e) + 2 * o_elem e + c_elem e
  | CSlot e => 10 + c_slot (el_tag e) + e_slot (el_tag e) + c_elem e
  end.
Lemma c_elem_eq t sels attrs args ch : c_elem (Element t sels attrs args ch) = c_head t sels attrs args + sum c_child (child_list ch).
Proof. destruct ch; reflexivity. Qed.
Definition one_slot (c : child) : nat := if is_slot c then 1 else 0.

Definition elem_ok (E : env) (e : element) : Prop := forall at_,
  costs (w_expand_element E at_ false e) (c_elem e) (fun ts => len ts <= o_elem e) /\
  costs (w_expand_element E at_ true e) (c_elem e) (fun ts => len ts = 13).
Lemma b_node E at_ c : (forall e, c = CElement e -> elem_ok E e) -> is_slot c = false -> 44 <= c_child c /\ node_ok (w_expand_node E at_ c) (c_child c - 44).
Proof.
  intros He Hs. unfold node_ok. destruct c as [v|e|e]; [| |discriminate]; cbn [c_child w_expand_node]; (split; [lia|]).
  - eapply costs_le; [apply (b_render _ _ _ 11 (WorkXBound.b_value v))|lia|auto].
  - eapply costs_le; [apply (b_render _ _ _ (o_elem e) (proj1 (He e eq_refl at_)))|lia|auto].
Qed.
Lemma b_nodes E at_ l : (forall e, In (CElement e) l -> elem_ok E e) -> forall n, exists cs,
  Forall2 node_ok (w_expand_nodes E at_ n l) cs /\ sum (fun c => 44 + c) cs = sum (fun c => if is_slot c then 0 else c_child c) l /\
  List.length cs + sum one_slot l = List.length l.
Proof.
  induction l as [|c l IH]; intros H n; [exists []; now repeat constructor|]. destruct (IH (fun e Hin => H e (or_intror Hin)) (S n)) as (cs & H1 & H2 & H3).
  rewrite sum_cons. destruct (is_slot c) eqn:Hs.
  - destruct c as [v|e|e]; try discriminate. exists cs. cbn [w_expand_nodes List.length]. rewrite sum_cons. cbn [one_slot is_slot]. split; [exact H1|]. lia.
  - destruct (b_node E (n :: at_) c) as [Hc1 Hc2]; [intros e ->; apply H; now left|exact Hs|]. exists ((c_child c - 44) :: cs).
    split; [destruct c; try discriminate; now constructor|]. rewrite !sum_cons, H2. unfold one_slot at 1. rewrite Hs. cbn [List.length]. lia.
Qed.
Lemma b_slot_list E at_ l : (forall e, In (CSlot e) l -> elem_ok E e) -> forall n, exists ds,
  Forall2 slot_ok (w_expand_slots E at_ n l) ds /\
  sum (fun c => c) ds + sum (fun p => 10 + c_slot (fst p) + e_slot (fst p)) (w_expand_slots E at_ n l) = sum (fun c => if is_slot c then c_child c else 0) l /\
  List.length (w_expand_slots E at_ n l) = sum one_slot l.
Proof.
  induction l as [|c l IH]; intros H n; [exists []; now repeat constructor|]. destruct (IH (fun e Hin => H e (or_intror Hin)) (S n)) as (ds & H1 & H2 & H3).
  rewrite !sum_cons. destruct c as [v|e|e]; cbn [is_slot w_expand_slots].
  - exists ds. auto.
  - exists ds. auto.
  - exists (c_elem e :: ds). split.
    + constructor; [|exact H1]. apply (H e (or_introl eq_refl)).
    + rewrite !sum_cons, <- H2. cbn [c_child fst one_slot is_slot List.length]. lia.
Qed.
Lemma slots_split l : sum (fun c => if is_slot c then 0 else c_child c) l + sum (fun c => if is_slot c then c_child c else 0) l = sum c_child l.
Proof. rewrite <- sum_plus. apply Nat.le_antisymm; apply sum_le; intros c _; destruct (is_slot c); lia. Qed.

Theorem b_element E e : env_ok E -> elem_ok E e.
Proof.
  intros HE. induction e as [t sels attrs args ch IHe IHs] using element_children_ind. intros at_.
  assert (Hk : forall slot, costs (w_element_tokens E at_ slot t sels attrs args (option_map (w_expand_nodes E at_ 0) ch) (option_map (w_expand_slots E at_ 0) ch))
    (c_elem (Element t sels attrs args ch) - 2 * S (List.length (child_list ch))) (fun ts => if slot then len ts = 13 else len ts <= o_elem (Element t sels attrs args ch))
    /\ 2 * S (List.length (child_list ch)) <= c_elem (Element t sels attrs args ch)).
  { rewrite c_elem_eq. unfold c_head, o_elem. set (l := child_list ch).
    destruct (b_nodes E at_ l IHe 0) as (cs & H1 & H2 & H3). destruct (b_slot_list E at_ l IHs 0) as (ds & H4 & H5 & H7). assert (H6 := slots_split l).
    assert (Hl : match ch with Some l' => l = l' | None => l = [] end) by (destruct ch; reflexivity).
    assert (Hn : match option_map (w_expand_nodes E at_ 0) ch with Some ns => Forall2 node_ok ns cs | None => cs = [] end).
    { destruct ch as [l'|]; cbn [option_map]; subst l; [exact H1|]. now inversion H1. }
    assert (Hs : match option_map (w_expand_slots E at_ 0) ch with Some ns => Forall2 slot_ok ns ds | None => ds = [] end).
    { destruct ch as [l'|]; cbn [option_map]; subst l; [exact H4|]. now inversion H4. }
    assert (Hp : match option_map (w_expand_slots E at_ 0) ch with Some l => sum (fun p => 4 + c_slot (fst p) + e_slot (fst p)) l | None => 0 end
      + sum (fun c => c) ds + 6 * sum one_slot l = sum (fun c => if is_slot c then c_child c else 0) l).
    { rewrite <- H5, <- H7. destruct ch as [l'|]; cbn [option_map]; subst l.
      - rewrite (sum_le_eq (fun p : tag * WX (list tt) => 10 + c_slot (fst p) + e_slot (fst p)) (fun p => 6 + (4 + c_slot (fst p) + e_slot (fst p)))) by (intros; lia). rewrite sum_shift. cbn [child_list]. lia.
      - inversion H4. reflexivity. }
    rewrite sum_shift in H2. cbv beta in H2.
    split; [|lia]. destruct slot; unfold w_element_tokens.
    - eapply costs_le; [apply (b_component _ _ true _ _ _ _ _ cs _ ds HE Hn Hs)| |intros a Ha; exact Ha]. rewrite sum_shift. lia.
    - eapply costs_bind with (n := 800 + c_tag t + 21 * List.length sels + c_sels sels + c_attrs attrs + 2 * o_attrs attrs + c_args args + sum c_child l - 5 * List.length l)
        (P := fun ts => len ts <= 16 + 3 * List.length sels + o_attrs attrs + 3 * List.length cs).
      + destruct (w_xml_to_tokens _ _ _ _) as [m|] eqn:Hm.
        * eapply costs_le; [apply (b_xml _ _ _ _ _ _ Hm Hn)| |intros a Ha; exact Ha]. rewrite sum_shift. lia.
        * eapply costs_le; [apply (b_component _ _ false _ _ _ _ _ cs _ ds HE Hn Hs)| |intros a Ha; cbn beta in *; lia]. rewrite sum_shift. lia.
      + lia.
      + intros r Hr. cbn beta in Hr. apply costs_extend_then; [lia|]. apply costs_ret. lia. }
  split.
  - destruct (Hk false) as [H1 H2]. rewrite expand_eq. apply costs_pay_then; [destruct ch; cbn [child_list List.length] in *; lia|]. destruct ch; exact H1.
  - destruct (Hk true) as [H1 H2]. rewrite expand_eq. apply costs_pay_then; [destruct ch; cbn [child_list List.length] in *; lia|]. destruct ch; exact H1.
Qed.

(** ** Views *)

Theorem b_root E cs : env_ok E -> expand_steps E cs <= 200 + sum c_child cs.
Proof.
  intros HE. unfold expand_steps.
  assert (Hall : forall e, elem_ok E e) by (intros; now apply b_element).
  assert (H10 : 10 * List.length cs <= sum c_child cs).
  { rewrite <- sum_const. apply sum_le. intros [v|e|e] _; cbn [c_child]; lia. }
  enough (costs (w_root_tokens E cs) (200 + sum c_child cs) (fun _ => True)) as [H _] by exact H.
  unfold w_root_tokens. apply costs_pay_then; [lia|]. cbv zeta.
  assert (Hf : costs (l <- x_seq (w_expand_nodes E [] 0 cs) ;; fragment <- w_children_fragment_tokens l ;;
      quote [Grp Brace (fixed [pu "#"; TGroup Bracket [kw "allow"; par [kw "unused_braces"]]] ++ [Splice fragment])])%xwork
      (200 + sum c_child cs - 2 * S (List.length cs)) (fun _ => True)).
  { destruct (b_nodes E [] cs (fun e _ => Hall e) 0) as (ds & H1 & H2 & H3). assert (H4 := slots_split cs).
    assert (H5 : 10 * sum one_slot cs <= sum (fun c => if is_slot c then c_child c else 0) cs).
    { assert (Hm : 10 * sum one_slot cs = sum (fun c => 10 * one_slot c) cs) by (clear; induction cs as [|c l IH]; [reflexivity|]; rewrite !sum_cons; lia).
      rewrite Hm. apply sum_le. intros [v|e|e] _; cbn [one_slot is_slot c_child]; lia. }
    rewrite sum_shift in H2. cbv beta in H2.
    eapply costs_bind; [apply (Forall2_seq _ _ _ H1)| |].
    - change S with (fun c => 1 + c). rewrite sum_shift. lia.
    - intros l [Hl1 Hl2]. change S with (fun c => 1 + c). rewrite sum_shift.
      eapply costs_bind; [apply (b_fragment _ _ Hl1 Hl2)|lia|]. intros f Hf. apply costs_quote; [count; li|exact I]. }
  destruct cs as [|c [|c' cs]].
  - exact Hf.
  - destruct (is_slot c) eqn:Hs.
    + destruct c as [v|e|e]; try discriminate. rewrite sum_cons in *. cbn [c_child List.length] in *.
      assert (Hc : tag_span_steps (el_tag e) <= c_slot (el_tag e)) by (destruct (el_tag e); cbn [tag_span_steps c_slot]; unfold c_path; lia).
      apply costs_pay_then; [lia|]. apply costs_abort. lia.
    + destruct (b_node E [0] c (fun e _ => Hall e) Hs) as [Hc1 Hc2]. rewrite sum_cons, sum_nil in *. cbn [List.length] in *. unfold node_ok in Hc2.
      assert (Hq : forall ts, len ts = 13 -> costs (quote [Grp Brace (fixed [pu "#"; TGroup Bracket [kw "allow"; par [kw "unused_braces"]]] ++ [Splice ts])]) 60 (fun _ => True)).
      { intros ts Hts. apply costs_quote; [count; lia|exact I]. }
      destruct c as [v|e|e]; try discriminate; (eapply costs_bind; [apply Hc2|lia|]; intros ts Hts; eapply costs_le; [apply Hq, Hts|lia|auto]).
  - destruct (existsb is_slot (c :: c' :: cs)); [|exact Hf]. set (l := c :: c' :: cs) in *.
    assert (Hp : fold_right (fun c n => child_span_steps c + n) 0 l + 9 * List.length l <= sum c_child l).
    { change (fold_right (fun c n => child_span_steps c + n) 0 l) with (sum child_span_steps l). rewrite <- sum_const, <- sum_plus. apply sum_le.
      intros [v|e|e] _; cbn [child_span_steps c_child]; try lia. destruct (el_tag e); cbn [tag_span_steps c_slot]; unfold c_path; lia. }
    apply costs_pay_then; [lia|]. apply costs_abort. lia.
Qed.
