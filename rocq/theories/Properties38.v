(** Theorem C72: how attributes of different sorts are mixed does not matter. *)
From Verif Require Import PropFacts1 CodeFacts ElementFacts Inv Fuel ExampleFacts Properties1 OrderFacts Lex.
From Verif Require Import Properties2 Properties6 Properties8 Properties13 Properties22 Properties35.
From Verif Require Import SpecStr SpecGrammar SpecOut SpecRead SpecOrder SpecWritable SpecCut SpecMixed Nightly.
From Verif Require Import MixedFacts MixedFacts2.
From Coq Require Import Permutation.
Open Scope list_scope.
Close Scope expand_scope.

(** The attributes of one element, or its classes and ids, may be mixed in another way,
    at any depth, as long as each sort keeps its order: the expansion is the same, token
    for token and for each order of slots.  If something is reported, it is the same
    reports, maybe in another order.  If one view panics, so does the other (if several
    names cannot be identifiers, maybe about another one of them). *)
Theorem C72_same E a b cs cs' : env_ok E -> wf a -> wf b ->
  children_phrase E a cs -> children_phrase E b cs' -> mixed cs cs' ->
  match mview E a, mview E b with
  | Expanded x, Expanded y => x = y
  | Errors ds, Errors ds' => Permutation ds ds'
  | Panicked w, Panicked w' => panic_alike w w'
  | _, _ => False
  end.
Proof.
  intros HE Ha Hb Hpa Hpb Hm. unfold mview. rewrite (clean_tree E a cs), (clean_tree E b cs') by auto. cbn [app].
  destruct (root_mix E cs cs' Hm) as [x d d' Hd|d d' Hd|w w' d d' Hw]; [|exact Hd|exact Hw].
  destruct d as [|y d], d' as [|y' d']; [reflexivity| | |exact Hd].
  - now apply Permutation_nil_cons in Hd.
  - apply Permutation_sym in Hd. now apply Permutation_nil_cons in Hd.
Qed.
Print Assumptions C72_same.

(** With the nightly feature the tokens that are given next to the reports are the same,
    too. *)
Theorem C72_nightly E a b cs cs' : env_ok E -> wf a -> wf b ->
  children_phrase E a cs -> children_phrase E b cs' -> mixed cs cs' ->
  match mview_nightly E a, mview_nightly E b with
  | Gave x ds, Gave y ds' => x = y /\ Permutation ds ds'
  | Crashed w, Crashed w' => panic_alike w w'
  | _, _ => False
  end.
Proof.
  intros HE Ha Hb Hpa Hpb Hm. unfold mview_nightly. rewrite (clean_tree E a cs), (clean_tree E b cs') by auto. cbn [app].
  destruct (root_mix E cs cs' Hm) as [x d d' Hd|d d' Hd|w w' d d' Hw]; [now split|now split|exact Hw].
Qed.
Print Assumptions C72_nightly.

(** Each tree that is mixed in another way can be written as a view, unless names have
    dashes at their ends. *)
Theorem C72_written E a cs cs' : env_ok E -> wf a -> children_phrase E a cs -> Forall apart cs -> mixed cs cs' ->
  exists b, wf b /\ children_phrase E b cs'.
Proof.
  intros HE Ha Hp Hap Hm. assert (Ho : Forall (child_ok E) cs) by (apply C56_written; [exact HE|]; eauto).
  apply C56_written; [exact HE|]. apply Forall_forall. destruct (mixed_ok E) as [_ H]. rewrite Forall_forall in Ho, Hap.
  now apply (H cs cs').
Qed.
Print Assumptions C72_written.

(** Which lists of attributes can be made from each other: those with the same
    attributes of each sort, in the same order. *)
Definition sort_dec (x y : sort) : {x = y} + {x <> y}.
Proof. decide equality. Defined.
Theorem C72_when t l m : exchanged (other_sort t) l m <->
  forall s, filter (fun a => if sort_dec (sort_on t a) s then true else false) l =
            filter (fun a => if sort_dec (sort_on t a) s then true else false) m.
Proof.
  split.
  - exact (exchanged_sorts (sort_on t) sort_dec l m).
  - exact (sorts_exchanged (sort_on t) sort_dec l m).
Qed.
Print Assumptions C72_when.

(** ** Cases *)

Ltac mix_list := apply C72_when; let s := fresh in intros s; destruct s; reflexivity.
Ltac mix_tree :=
  first [ apply mix_nil
        | apply mix_value; mix_tree
        | apply mix_element; [mix_elem|mix_tree]
        | apply mix_slot; [mix_elem|mix_tree] ]
with mix_elem :=
  first [ apply mix_none; [mix_selectors|mix_list]
        | apply mix_some; [mix_selectors|mix_list|mix_tree] ]
with mix_selectors :=
  first [ apply ex_same
        | apply (ex_step _ []); [constructor|mix_selectors]
        | apply (ex_step _ [_]); [constructor|mix_selectors] ].

Definition one_way : list tt :=
  lex "div.a#i.b k=1 class:x={c} on:e={f} l=2 {..s} style:y={d} { My k=1 clone:z class:x={c} l=2 clone:w {..s} |q| { 'd' slot:S k=3 clone:v l=4 { {e} } } }".
Definition other_way : list tt :=
  lex "div#i.a.b {..s} class:x={c} k=1 on:e={f} style:y={d} l=2 { My class:x={c} {..s} clone:z clone:w k=1 l=2 |q| { 'd' slot:S clone:v k=3 l=4 { {e} } } }".
Example C72_case :
  wf one_way /\ wf other_way /\
  children_phrase E0 one_way (tree_of one_way) /\ children_phrase E0 other_way (tree_of other_way) /\
  mixed (tree_of one_way) (tree_of other_way) /\ tree_of one_way <> tree_of other_way /\
  exists out, mview E0 one_way = Expanded out /\ mview E0 other_way = Expanded out.
Proof.
  assert (H1 : expands E0 one_way (tree_of one_way) (out_of one_way)) by (apply case_expands; vm_compute; reflexivity).
  assert (H2 : expands E0 other_way (tree_of other_way) (out_of other_way)) by (apply case_expands; vm_compute; reflexivity).
  destruct H1 as (_ & W1 & P1 & M1). destruct H2 as (_ & W2 & P2 & M2).
  split; [exact W1|]. split; [exact W2|]. split; [exact P1|]. split; [exact P2|].
  split; [vm_compute; mix_tree|]. split; [vm_compute; discriminate|].
  exists (out_of one_way). split; [exact M1|]. rewrite M2. vm_compute. reflexivity.
Qed.

(** Reports come in another order, and so do names that cannot be identifiers. *)
Example C72_reports_case :
  mixed (tree_of (lex "div k=g[a] attr:x={y};")) (tree_of (lex "div attr:x={y} k=g[a];")) /\
  mview E0 (lex "div k=g[a] attr:x={y};") = Errors [DPrefix; DNotOnElements "attr"] /\
  mview E0 (lex "div attr:x={y} k=g[a];") = Errors [DNotOnElements "attr"; DPrefix] /\
  mixed (tree_of (lex "div self=1 on:crate={y};")) (tree_of (lex "div on:crate={y} self=1;")) /\
  mview E0 (lex "div self=1 on:crate={y};") = Panicked (PNewRaw "self") /\
  mview E0 (lex "div on:crate={y} self=1;") = Panicked (PNewRaw "crate").
Proof.
  split; [vm_compute; mix_tree|]. split; [vm_compute; reflexivity|]. split; [vm_compute; reflexivity|].
  split; [vm_compute; mix_tree|]. split; vm_compute; reflexivity.
Qed.

(** The order within one sort does matter; and spreads are a sort of their own only on
    HTML elements. *)
Example C72_order_matters :
  out_of (lex "div class:a={b} style:c={d};") <> out_of (lex "div style:c={d} class:a={b};") /\
  out_of (lex "div.a.b;") <> out_of (lex "div.b.a;") /\
  out_of (lex "div class:a={b} {..s};") = out_of (lex "div {..s} class:a={b};") /\
  out_of (lex "C class:a={b} {..s};") <> out_of (lex "C {..s} class:a={b};") /\
  (exists out, mview E0 (lex "C class:a={b} {..s};") = Expanded out) /\
  (exists out, mview E0 (lex "div.a.b;") = Expanded out) /\
  (exists out, mview E0 (lex "div class:a={b} {..s};") = Expanded out).
Proof.
  split; [vm_compute; discriminate|]. split; [vm_compute; discriminate|]. split; [vm_compute; reflexivity|].
  split; [vm_compute; discriminate|]. split; [|split]; eexists; vm_compute; reflexivity.
Qed.
