(** The user's code in a tree has at most as many tokens as the view that was read. *)
From Verif Require Export WorkXLow.
From Verif Require Import SizeFacts ExpandFacts2.
From Coq Require Import Lia Arith.
Open Scope list_scope.

Lemma size_T ts : size ts = T ts.
Proof.
  assert (Hall : forall n ts, size ts <= n -> size ts = T ts).
  { induction n as [|n IH]; intros [|t l] Hn; auto.
    - rewrite size_cons in Hn. destruct t; cbn [tt_size] in Hn; lia.
    - rewrite size_cons in *. rewrite T_cons. destruct t as [i|c sp|k s|d inner].
      + rewrite t_ident. cbn [tt_size] in *. rewrite (IH l); lia.
      + rewrite t_punct. cbn [tt_size] in *. rewrite (IH l); lia.
      + rewrite t_lit. cbn [tt_size] in *. rewrite (IH l); lia.
      + rewrite t_group. change (tt_size (TGroup d inner)) with (S (size inner)) in *. rewrite (IH l), (IH inner); lia. }
  exact (Hall _ ts (le_n _)).
Qed.
Lemma sum_total {A} (f g : A -> nat) l : (forall a, In a l -> f a <= g a) -> sum f l <= CountFacts.total g l.
Proof.
  induction l as [|a l IH]; intros H; [apply le_n|]. rewrite sum_cons. cbn [CountFacts.total].
  assert (H1 := H a (or_introl eq_refl)). assert (H2 := IH (fun b Hb => H b (or_intror Hb))). lia.
Qed.
Lemma value_le v : u_value v <= value_size v.
Proof. destruct v as [l|ts|[p|] ts]; cbn [u_value value_size]; rewrite ?size_T; lia. Qed.
Lemma opt_le v : u_opt v <= opt_size v.
Proof. destruct v; [apply value_le|apply le_n]. Qed.
Lemma attr_le a : u_attr a <= attr_size a.
Proof.
  destruct a as [a|d|ts]; cbn [u_attr attr_size]; [apply value_le| |rewrite size_T; lia]. assert (H := opt_le (d_value d)). lia.
Qed.
Lemma elem_le e : u_elem e <= tree_size e.
Proof.
  induction e as [t sels attrs args ch IHe IHs] using element_children_ind. rewrite u_elem_eq, tree_size_eq.
  assert (H1 := sum_total u_attr attr_size attrs (fun a _ => attr_le a)).
  assert (H2 : u_args args <= args_size args) by (destruct args; cbn [u_args args_size]; rewrite ?size_T; lia).
  assert (H3 : sum u_child (child_list ch) <= CountFacts.total child_size (child_list ch)).
  { apply sum_total. intros [v|e|e] Hin; cbn [u_child child_size]; [apply value_le|now apply IHe|]. assert (H := IHs e Hin). lia. }
  lia.
Qed.
Lemma u_size E input cs : children_phrase E input cs -> sum u_child cs <= size input.
Proof.
  intros H. destruct (T_view E input cs H) as [Ht _]. rewrite size_T. etransitivity; [|exact Ht].
  apply sum_total. intros [v|e|e] _; cbn [u_child child_size]; [apply value_le|apply elem_le|]. assert (H' := elem_le e). lia.
Qed.
