(** The result of parsing does not depend on the amount of fuel. *)
From Verif Require Export Inv.

Lemma bind_ext {A B} (m m' : P A) (f f' : A -> P B) ts :
  m ts = m' ts -> (forall a r d, m ts = PR (Ret a) r d -> f a r = f' a r) ->
  bind m f ts = bind m' f' ts.
Proof.
  intros Hm Hf. unfold bind. rewrite <- Hm. destruct (m ts) as [[a|e| |w|] r d]; auto.
  now rewrite (Hf a r d eq_refl).
Qed.

Definition pc_same (pc pc' : P (list child)) (ts : list tt) : Prop :=
  forall d inner, In (TGroup d inner) ts -> pc inner = pc' inner.
Lemma pc_same_suffix pc pc' r ts : suffix r ts -> pc_same pc pc' ts -> pc_same pc pc' r.
Proof. intros Hs H d inner Hin. eapply H. eapply suffix_in; eauto. Qed.

Lemma delimited_ext pc pc' d ts : pc_same pc pc' ts -> delimited d pc ts = delimited d pc' ts.
Proof.
  intros H. unfold delimited. destruct ts as [|[| | |d' l] ts]; auto.
  destruct (delim_eqb d d'); auto. rewrite (H d' l); auto. now left.
Qed.
Lemma block_ext pc pc' d (mk : list child -> element) ts : pc_same pc pc' ts ->
  (c <- delimited d pc ;; ret (mk c))%parse ts = (c <- delimited d pc' ;; ret (mk c))%parse ts.
Proof. intros H. apply bind_ext; auto. now apply delimited_ext. Qed.

Lemma element_tail_ext pc pc' t sels attrs ts : pc_same pc pc' ts ->
  element_tail pc t sels attrs ts = element_tail pc' t sels attrs ts.
Proof.
  intros Hpc. unfold element_tail. apply bind_ext; auto. intros semi r d Hr.
  assert (Hsuf : suffix r ts).
  { assert (Hf : fine ts (rollback_err (parse_punct ";") ts)) by fn. rewrite Hr in Hf. now apply fine_suffix in Hf. }
  assert (Hpc' := pc_same_suffix _ _ _ _ Hsuf Hpc).
  destruct semi; auto.
  rewrite !(bind_run0 (look (fun ts => ts)) _ r r r eq_refl).
  destruct r as [|t0 r1]; auto. set (rr := t0 :: r1) in *.
  destruct (peek_group Brace rr); [now apply block_ext|].
  destruct (peek_group Paren rr); [now apply block_ext|].
  destruct (peek_punct "|" rr); auto.
  apply bind_ext; auto. intros args r2 d2 H2.
  assert (Hf := fine_after _ _ _ _ _ (fine_closure_args rr) H2).
  assert (Hpc2 := pc_same_suffix _ _ _ _ Hf Hpc').
  rewrite !(bind_run0 (look (fun ts => ts)) _ r2 r2 r2 eq_refl).
  destruct (peek_group Brace r2); [now apply block_ext|].
  destruct (peek_group Paren r2); [now apply block_ext|]. auto.
Qed.
Lemma parse_element_ext E pc pc' ts : env_ok E -> pc_same pc pc' ts ->
  parse_element E pc ts = parse_element E pc' ts.
Proof.
  intros HE Hpc. rewrite !parse_element_eq. apply bind_ext; [reflexivity|]. intros t r d Hr.
  assert (Hs := fine_after _ _ _ _ _ (fine_tag E ts HE) Hr).
  apply bind_ext; [reflexivity|]. intros sels r2 d2 Hr2.
  assert (Hs2 := fine_after _ _ _ _ _ (fine_selectors r) Hr2).
  apply bind_ext; [reflexivity|]. intros attrs r3 d3 Hr3.
  assert (Hs3 := fine_after _ _ _ _ _ (fine_attrs r2) Hr3).
  apply element_tail_ext. eapply pc_same_suffix; [|exact Hpc]. eauto with suff.
Qed.
Lemma parse_child_ext E pc pc' ts : env_ok E -> pc_same pc pc' ts ->
  parse_child E pc ts = parse_child E pc' ts.
Proof.
  intros HE Hpc. rewrite !parse_child_step.
  assert (Hrest : (if peek_keyword "slot" ts && peek2 (peek_punct ":") ts && negb (peek2 (peek_punct "::") ts) then
        match ts with
        | _ :: _ :: r => bind (parse_element E pc) (fun e => ret (CSlot e)) r
        | _ => PR NoFuel ts []
        end
      else if peek_any ts then bind (parse_element E pc) (fun e => ret (CElement e)) ts
      else PR (Fail EChild) ts []) =
     (if peek_keyword "slot" ts && peek2 (peek_punct ":") ts && negb (peek2 (peek_punct "::") ts) then
        match ts with
        | _ :: _ :: r => bind (parse_element E pc') (fun e => ret (CSlot e)) r
        | _ => PR NoFuel ts []
        end
      else if peek_any ts then bind (parse_element E pc') (fun e => ret (CElement e)) ts
      else PR (Fail EChild) ts [])).
  { destruct (_ && _ && _) eqn:Hslot.
    - apply slot_test in Hslot. destruct Hslot as (sp & r0 & -> & Hns).
      apply bind_ext; [|auto]. apply parse_element_ext; auto. eapply pc_same_suffix; [|exact Hpc]. auto with suff.
    - destruct (peek_any ts); [|reflexivity]. apply bind_ext; [now apply parse_element_ext|auto]. }
  destruct (parse_value ts) as [[v| | | |] r d]; auto.
Qed.

Lemma parse_children_fuel E : env_ok E -> forall n m ts, size ts < n -> size ts < m ->
  parse_children E n ts = parse_children E m ts.
Proof.
  intros HE. induction n as [|n IH]; intros m ts Hn Hm; [lia|]. destruct m as [|m]; [lia|].
  destruct ts as [|t ts]; [reflexivity|]. rewrite !parse_children_step.
  assert (Hpc : pc_fine (parse_children E n) (t :: ts)).
  { intros d inner Hin. apply fine_children; auto. apply in_group_size in Hin. lia. }
  rewrite <- (parse_child_ext E (parse_children E n) (parse_children E m) (t :: ts) HE).
  2: { intros d inner Hin. apply in_group_size in Hin. apply IH; lia. }
  pose proof (fine_child E _ _ HE Hpc) as Hf. pose proof (eats_child E _ _ HE Hpc) as He.
  destruct (parse_child E (parse_children E n) (t :: ts)) as [[c|e| |w|] r d] eqn:Hc; auto.
  - specialize (He c eq_refl). cbn [p_rest] in He. apply fine_suffix in Hf. cbn in Hf.
    pose proof (suffix_len_size _ _ Hf He). rewrite (IH m r); auto; lia.
  - apply fine_suffix in Hf. cbn in Hf. destruct (peek_punct ";" r) eqn:Hs.
    + apply peek_punct1 in Hs; [|discriminate]. destruct r as [|x r]; [contradiction|]. cbn [tl].
      apply suffix_size in Hf. rewrite size_cons in Hf. pose proof (tt_size_pos x).
      rewrite (IH m r); auto; lia.
    + rewrite (IH m []); auto; rewrite size_cons in *; pose proof (tt_size_pos t);
        change (size []) with 0; lia.
Qed.

(** Parsing with enough fuel, as a function without fuel. *)
Definition children_of (E : env) (ts : list tt) : pres (list child) :=
  parse_children E (S (size ts)) ts.
Lemma children_of_fuel E n ts : env_ok E -> size ts < n -> parse_children E n ts = children_of E ts.
Proof. intros HE Hn. apply parse_children_fuel; auto. Qed.
Lemma children_of_step E t ts : env_ok E -> children_of E (t :: ts) =
  match parse_child E (children_of E) (t :: ts) with
  | PR (Ret c) r d => prepend d (cons_child c (children_of E r))
  | PR (Fail e) r d =>
      if peek_punct ";" r then prepend (d ++ [DExtraSemi]) (children_of E (tl r))
      else prepend (d ++ [DParse e]) (children_of E [])
  | PR Abort r d => PR Abort r d
  | PR (Panic w) r d => PR (Panic w) r d
  | PR NoFuel r d => PR NoFuel r d
  end.
Proof.
  intros HE. unfold children_of at 1. rewrite parse_children_step.
  assert (Hpc : pc_fine (parse_children E (size (t :: ts))) (t :: ts)).
  { intros d inner Hin. apply fine_children; auto. apply in_group_size in Hin. lia. }
  rewrite <- (parse_child_ext E (parse_children E (size (t :: ts))) (children_of E) (t :: ts) HE).
  2: { intros d inner Hin. apply in_group_size in Hin. apply children_of_fuel; auto. }
  pose proof (fine_child E _ _ HE Hpc) as Hf. pose proof (eats_child E _ _ HE Hpc) as He.
  destruct (parse_child E _ (t :: ts)) as [[c|e| |w|] r d] eqn:Hc; auto.
  - specialize (He c eq_refl). cbn [p_rest] in He. apply fine_suffix in Hf. cbn in Hf.
    pose proof (suffix_len_size _ _ Hf He). rewrite children_of_fuel; auto.
  - apply fine_suffix in Hf. cbn in Hf. destruct (peek_punct ";" r) eqn:Hs.
    + apply peek_punct1 in Hs; [|discriminate]. destruct r as [|x r]; [contradiction|]. cbn [tl].
      apply suffix_size in Hf. rewrite size_cons in Hf. pose proof (tt_size_pos x).
      rewrite children_of_fuel; auto. lia.
    + rewrite children_of_fuel; auto. rewrite size_cons in *. pose proof (tt_size_pos t). change (size []) with 0. lia.
Qed.
Lemma children_of_ok E ts cs r : env_ok E -> wf ts ->
  children_of E on ts >> cs, r <-> r = [] /\ children_phrase E ts cs.
Proof. intros HE Hwf. apply parse_children_ok; auto. Qed.
