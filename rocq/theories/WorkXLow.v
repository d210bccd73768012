(** A lower bound for the steps of the expander: every token that is made, and every
    token that is copied more than once, takes a step. *)
From Verif Require Export WorkXBound2 Monad.
From Verif Require Import ExpandFacts2 WorkBound WorkLow.
From Coq Require Import Lia Arith Permutation.
Open Scope list_scope.
Close Scope parse_scope.
Close Scope work_scope.
Close Scope expand_scope.
Open Scope xwork_scope.

(** What [m] returns, measured by [f], is paid by [k] and the steps of [m]. *)
Definition low {A} (m : WX A) (k : nat) (f : A -> nat) : Prop :=
  forall a, x_out (snd m) = XRet a -> f a <= k + fst m.

Lemma low_le {A} (m : WX A) k k' f f' : low m k f -> k <= k' -> (forall a, f' a <= f a) -> low m k' f'.
Proof. intros H Hk Hf a Ha. specialize (H a Ha). specialize (Hf a). lia. Qed.
Lemma low_bind {A B} (m : WX A) (g : A -> WX B) k k' f h K :
  low m k f -> k + k' <= K -> (forall a, low (g a) (f a + k') h) -> low (x_bind m g) K h.
Proof.
  intros Hm HK Hg b. destruct m as [n [[a| |w] d]]; cbn; try discriminate. intros Hb.
  specialize (Hm a eq_refl). specialize (Hg a b Hb). cbn [fst] in *. lia.
Qed.
Lemma low_ret {A} (a : A) k f : f a <= k -> low (x_ret a) k f.
Proof. intros H b Hb. injection Hb as <-. cbn. lia. Qed.
Lemma low_pay {B} n (g : unit -> WX B) k h : low (g Datatypes.tt) (k + n) h -> low (x_bind (x_pay n) g) k h.
Proof. intros H b Hb. specialize (H b Hb). cbn in *. lia. Qed.
Lemma low_skip {A B} (m : WX A) (g : A -> WX B) k h : (forall a, low (g a) k h) -> low (x_bind m g) k h.
Proof. intros H. apply (low_bind m g 0 k (fun _ => 0)); [intros a Ha; lia|lia|]. intros a. apply H. Qed.
Lemma low_panic {A} w k (f : A -> nat) : low (x_panic w) k f. Proof. intros a Ha. discriminate. Qed.
Lemma low_abort {A} d k (f : A -> nat) : low (x_abort d) k f. Proof. intros a Ha. discriminate. Qed.

(** ** Templates *)

Fixpoint p_credit (p : piece) : nat :=
  match p with
  | Tok _ => 0
  | Splice ts => size ts
  | Grp d l => fold_right (fun p n => p_credit p + n) 0 l
  end.
Definition credit (l : list piece) : nat := fold_right (fun p n => p_credit p + n) 0 l.
Lemma credit_app a b : credit (a ++ b) = credit a + credit b.
Proof. induction a as [|p a IH]; [reflexivity|]. unfold credit in *. cbn [app fold_right]. rewrite IH. lia. Qed.
Lemma credit_fixed ts : credit (fixed ts) = 0.
Proof. induction ts as [|t ts IH]; auto. Qed.
Lemma credit_cons p l : credit (p :: l) = p_credit p + credit l. Proof. reflexivity. Qed.
Lemma credit_nil : credit [] = 0. Proof. reflexivity. Qed.
Lemma credit_tok t : p_credit (Tok t) = 0. Proof. reflexivity. Qed.
Lemma credit_splice ts : p_credit (Splice ts) = size ts. Proof. reflexivity. Qed.
Lemma credit_grp d l : p_credit (Grp d l) = credit l. Proof. reflexivity. Qed.
Lemma credit_method i l : credit (q_method i l) = credit l.
Proof. unfold q_method. rewrite !credit_cons, credit_grp, credit_nil. cbn [p_credit]. lia. Qed.
Ltac credits := cbv zeta; repeat (rewrite ?credit_app, ?credit_fixed, ?credit_method, ?credit_cons, ?credit_nil, ?credit_grp, ?credit_tok, ?credit_splice).
Lemma piece_size p : size (piece_tokens p) <= piece_steps p + p_credit p.
Proof.
  revert p. fix IH 1. intros [t|ts|d l]; cbn [piece_tokens piece_steps p_credit].
  - rewrite size_cons. assert (H := weigh_size t). change (size []) with 0. lia.
  - lia.
  - rewrite size_cons. cbn [tt_size]. change (size []) with 0.
    assert (H : size (flat_map piece_tokens l) <= fold_right (fun p n => piece_steps p + n) 0 l + fold_right (fun p n => p_credit p + n) 0 l).
    { induction l as [|p l IHl]; [apply le_n|]. cbn [flat_map fold_right]. rewrite size_app. specialize (IH p). lia. }
    unfold size in *. lia.
Qed.
Lemma quote_size l : size (quote_tokens l) <= quote_steps l + credit l.
Proof.
  induction l as [|p l IH]; [apply le_n|]. rewrite quote_cons, size_app, steps_cons, credit_cons. assert (H := piece_size p). lia.
Qed.
Lemma low_quote l k : credit l <= S k -> low (quote l) k size.
Proof. intros H a Ha. injection Ha as <-. assert (Hq := quote_size l). cbn [quote fst]. lia. Qed.
Lemma low_quote_then {B} l (g : list tt -> WX B) k k' h :
  credit l + k' <= S k -> (forall ts, low (g ts) (size ts + k') h) -> low (x_bind (quote l) g) k h.
Proof.
  intros H Hg. intros b Hb. cbn [x_bind quote fst snd xret x_out] in *. rewrite xbind_ret in Hb. specialize (Hg _ b Hb).
  assert (Hq := quote_size l). lia.
Qed.

(** ** Function by function; the credit is what the user wrote *)

Definition u_value (v : value) : nat := match v with VLit _ => 0 | VBlock ts | VBracket _ ts => size ts end.
Definition u_opt (v : option value) : nat := match v with Some v => u_value v | None => 0 end.
Lemma l_value v : low (w_value_tokens v) (u_value v) size.
Proof.
  unfold w_value_tokens. apply (low_bind _ _ (u_value v) 0 size); [|lia|].
  - destruct v as [l|ts|[p|] ts]; cbn [u_value].
    + apply low_quote. credits. lia.
    + apply low_pay. apply low_quote. credits. lia.
    + apply low_pay. destruct (ident_is p "f"); [apply low_quote; credits; lia|]. apply low_skip. intros _. apply low_ret. change (size []) with 0. lia.
    + apply low_quote. credits. lia.
  - intros r. apply low_pay. apply low_ret. lia.
Qed.
Lemma l_opt v : low (w_opt_value_tokens v) (u_opt v) size.
Proof. destruct v; [apply l_value|]. apply low_ret. change (size []) with 0. lia. Qed.
Lemma l_or_true v : low (w_value_or_true v) (u_opt v) u_value.
Proof. unfold w_value_or_true. apply low_pay. apply low_ret. destruct v; cbn; lia. Qed.
Lemma l_colored k : low (w_to_str_colored k) 0 size.
Proof. unfold w_to_str_colored. apply low_pay. apply low_quote. credits. lia. Qed.
Lemma l_use d : low (w_use_directive_fn_value d) (u_opt (d_value d)) (fun p => size (snd p)).
Proof.
  unfold w_use_directive_fn_value. apply low_pay. do 3 (apply low_skip; intros ?).
  destruct (d_value d) as [v|]; cbn [u_opt].
  - apply (low_bind _ _ (u_value v) 0 size); [apply l_value|lia|]. intros ts. apply (low_quote_then _ _ _ 0); [credits; lia|].
    intros t. apply low_ret. cbn [snd]. lia.
  - apply (low_quote_then _ _ _ 0); [credits; lia|]. intros t. apply low_ret. cbn [snd]. lia.
Qed.
Lemma l_event d : low (w_event_listener_event_path d) 0 size.
Proof.
  unfold w_event_listener_event_path. apply low_pay. do 2 (apply low_skip; intros ?). destruct (d_modifier d) as [m|].
  - apply low_pay. destruct (ident_is m "undelegated"); [apply low_quote; credits; lia|]. apply low_skip. intros ?. apply low_quote. credits. lia.
  - apply low_quote. credits. lia.
Qed.
Lemma l_seq {A} (l : list (WX A)) (ks : list nat) f : Forall2 (fun m k => low m k f) l ks ->
  low (x_seq l) (sum (fun k => k) ks) (fun r => sum f r).
Proof.
  induction 1 as [|m k l ks Hm H IH]; cbn [x_seq].
  - apply low_ret. apply le_n.
  - rewrite sum_cons. eapply low_bind; [exact Hm|apply le_n|]. intros a. apply low_pay.
    eapply (low_bind _ _ _ (f a + 1)); [exact IH|lia|]. intros r. apply low_ret. rewrite sum_cons. lia.
Qed.
Lemma l_seq0 {A B} (g : B -> WX A) (l : list B) f : (forall b, low (g b) 0 f) -> low (x_seq (map g l)) 0 (fun r => sum f r).
Proof.
  intros H. eapply low_le; [apply (l_seq _ (map (fun _ => 0) l))| |reflexivity].
  - induction l; cbn [map]; constructor; auto.
  - rewrite sum_map, sum_const. lia.
Qed.
Lemma credit_splices l : credit (map Splice l) = sum size l.
Proof. induction l as [|x l IH]; [reflexivity|]. cbn [map]. rewrite credit_cons, sum_cons, IH. reflexivity. Qed.
Lemma l_xml_selectors sels : low (w_xml_selectors_tokens sels) 0 size.
Proof.
  unfold w_xml_selectors_tokens. apply low_pay. destruct (partition sel_is_class sels) as [classes ids].
  apply (low_bind _ _ 0 0 (fun r => sum size r)); [|lia|].
  - apply l_seq0. intros s. unfold w_class_method. apply (low_bind _ _ 0 0 size); [apply l_colored|lia|]. intros c. apply low_quote. credits. lia.
  - intros cl. apply (low_bind _ _ 0 (sum size cl) (fun r => sum size r)); [|lia|].
    + apply l_seq0. intros s. unfold w_id_method. apply (low_bind _ _ 0 0 size); [apply l_colored|lia|]. intros c. apply low_quote. credits. lia.
    + intros il. apply low_quote. rewrite credit_app, !credit_splices. lia.
Qed.
Definition u_attr (a : attr) : nat :=
  match a with AKv a => u_value (kv_value a) | ADir d => u_opt (d_value d) | ASpread ts => size ts end.
Ltac one_value := eapply (low_bind _ _ _ 0 size); [first [apply l_value|apply l_opt]|rewrite ?Nat.add_0_r; apply le_n|intros ?; apply low_quote; credits; lia].
Lemma l_xml_kv a k : low (w_xml_kv_attribute_tokens a k) (u_value (kv_value a)) size.
Proof.
  unfold w_xml_kv_attribute_tokens. cbv zeta. apply low_pay. eapply low_le with (k := u_value (kv_value a)) (f := size); [|lia|auto].
  destruct (String.eqb _ _); [one_value|].
  apply low_skip. intros ak. destruct (_ && _); [one_value|]. apply low_skip. intros i. one_value.
Qed.
Lemma l_nil k : low (x_ret []) k size. Proof. apply low_ret. change (size []) with 0. lia. Qed.
Lemma l_xml_dir d : low (w_xml_directive_tokens d) (u_opt (d_value d)) size.
Proof.
  unfold w_xml_directive_tokens. cbv zeta. apply low_pay. eapply low_le with (k := u_opt (d_value d)) (f := size); [|lia|auto].
  destruct (_ || _); [do 2 (apply low_skip; intros ?); one_value|].
  destruct (String.eqb _ _); [do 2 (apply low_skip; intros ?); one_value|].
  destruct (String.eqb _ _).
  { apply (low_bind _ _ 0 (u_opt (d_value d)) size); [apply l_event|lia|]. intros p.
    apply (low_bind _ _ (u_opt (d_value d)) (size p) size); [apply l_opt|lia|]. intros v. apply low_quote. credits. lia. }
  destruct (String.eqb _ _).
  { apply (low_bind _ _ (u_opt (d_value d)) 0 (fun p => size (snd p))); [apply l_use|lia|]. intros fv. apply low_quote. credits. lia. }
  destruct (_ || _); apply low_skip; intros ?; apply l_nil.
Qed.
Lemma l_xml_spread ts : low (w_xml_spread_tokens ts) (size ts) size.
Proof. apply low_quote. credits. lia. Qed.
Definition triple (p : list tt * list tt * list tt) : nat := let '(a, b, c) := p in size a + size b + size c.
Lemma l_xml_loop k l : forall acc, low (w_xml_attr_loop k l acc) (triple acc + sum u_attr l) triple.
Proof.
  induction l as [|a l IH]; intros [[kvs dirs] sps]; cbn [w_xml_attr_loop].
  - apply low_ret. lia.
  - rewrite sum_cons. destruct a as [a|d|ts]; cbn [u_attr].
    + eapply (low_bind _ _ _ (triple (kvs, dirs, sps) + sum u_attr l) size); [apply l_xml_kv|lia|]. intros t. apply low_pay.
      eapply low_le; [apply IH| |reflexivity]. cbn [triple]. rewrite size_app. lia.
    + eapply (low_bind _ _ _ (triple (kvs, dirs, sps) + sum u_attr l) size); [apply l_xml_dir|lia|]. intros t. apply low_pay.
      eapply low_le; [apply IH| |reflexivity]. cbn [triple]. rewrite size_app. lia.
    + eapply (low_bind _ _ _ (triple (kvs, dirs, sps) + sum u_attr l) size); [apply l_xml_spread|lia|]. intros t. apply low_pay.
      eapply low_le; [apply IH| |reflexivity]. cbn [triple]. rewrite size_app. lia.
Qed.
Definition lows (ns : list (WX (list tt))) (us : list nat) : Prop := Forall2 (fun m u => low m u size) ns us.
Lemma l_render s m u : low m u size -> low (w_into_render s m) u size.
Proof.
  intros H. unfold w_into_render. apply low_pay. apply (low_bind _ _ u s size); [exact H|lia|]. intros ts. apply low_pay.
  apply (low_quote_then _ _ _ 0); [credits; lia|]. intros r. apply low_pay. apply low_ret. lia.
Qed.
Lemma size_concat l : size (List.concat l) = sum size l.
Proof. induction l as [|x l IH]; [reflexivity|]. cbn [List.concat]. rewrite size_app, sum_cons, IH. reflexivity. Qed.
Lemma l_xml_children ns us : lows ns us -> low (w_xml_child_methods_tokens ns) (sum (fun u => u) us) size.
Proof.
  intros H. unfold w_xml_child_methods_tokens. eapply (low_bind _ _ _ 0); [apply l_seq|rewrite Nat.add_0_r; apply le_n|].
  - instantiate (1 := size). induction H as [|m u ns us Hm H IH]; cbn [map]; constructor; [|exact IH].
    unfold w_child_method. apply (low_bind _ _ u 0 size); [exact Hm|lia|]. intros c. apply (low_quote_then _ _ _ 0); [credits; lia|]. intros r. apply low_pay. apply low_ret. lia.
  - intros l. apply low_ret. rewrite size_concat. lia.
Qed.
Lemma l_component_kv a : low (w_component_kv_attribute_tokens a) (u_value (kv_value a)) size.
Proof. unfold w_component_kv_attribute_tokens. apply low_skip. intros i. one_value. Qed.
Lemma l_clone d : low (w_component_clone_tokens d) 0 size.
Proof. unfold w_component_clone_tokens. do 3 (apply low_skip; intros ?). apply low_quote. credits. lia. Qed.
Lemma credit_each l : credit (flat_map (fun c => [Splice c; Tok (pu ",")]) l) = sum size l.
Proof. induction l as [|x l IH]; [reflexivity|]. cbn [flat_map]. rewrite credit_app, IH, sum_cons. credits. lia. Qed.
Lemma l_fragment l : low (w_children_fragment_tokens l) (sum size l) size.
Proof. apply low_quote. rewrite credit_app, credit_fixed. rewrite credit_cons, credit_grp, credit_cons, credit_grp, credit_each, !credit_nil. lia. Qed.
Lemma l_component_children ns us args clones : lows ns us ->
  low (w_component_children_tokens ns args clones) (sum (fun u => u) us + match args with Some a => size a | None => 0 end + size clones) size.
Proof.
  intros H. unfold w_component_children_tokens. apply low_pay.
  eapply (low_bind _ _ _ (match args with Some a => size a | None => 0 end + size clones)); [apply (l_seq _ us); exact H|lia|]. intros l. cbn beta.
  apply (low_bind _ _ (sum size l) (match args with Some a => size a | None => 0 end + size clones) size); [apply l_fragment|lia|]. intros f.
  apply (low_bind _ _ (size f + match args with Some a => size a | None => 0 end) (size clones) size); [|lia|].
  - destruct args as [a|]; [apply low_quote; credits; lia|]. apply (low_quote_then _ _ _ 0); [credits; lia|]. intros c. apply low_quote. credits. lia.
  - intros w. apply low_quote. credits. lia.
Qed.
Ltac any_value := eapply (low_bind _ _ _ 0 u_value); [apply l_or_true|rewrite ?Nat.add_0_r; apply le_n|intros ?; rewrite ?Nat.add_0_r].
Lemma l_any_attr d m : w_directive_to_any_attr_path d = Some m -> low m (u_opt (d_value d)) size.
Proof.
  unfold w_directive_to_any_attr_path. cbv zeta. intros H.
  destruct (_ || _). { injection H as <-. apply low_skip. intros s. any_value. apply low_pay. eapply low_le; [one_value|lia|auto]. }
  destruct (String.eqb _ _).
  { injection H as <-. apply low_skip. intros s. apply low_skip. intros ak. destruct ak.
    1,2: apply low_skip; intros i; any_value; apply low_pay; eapply low_le; [one_value|lia|auto].
    - apply low_skip. intros s'. any_value. one_value.
    - apply low_skip. intros i. any_value. one_value. }
  destruct (String.eqb _ _). { injection H as <-. apply low_skip. intros i. any_value. one_value. }
  destruct (String.eqb _ _).
  { injection H as <-. apply (low_bind _ _ 0 (u_opt (d_value d)) size); [apply l_event|lia|]. intros p.
    apply (low_bind _ _ (u_opt (d_value d)) (size p) size); [apply l_opt|lia|]. intros v. apply low_quote. credits. lia. }
  destruct (String.eqb _ _); [|discriminate]. injection H as <-.
  apply (low_bind _ _ (u_opt (d_value d)) 0 (fun p => size (snd p))); [apply l_use|lia|]. intros fv. apply low_quote. credits. lia.
Qed.

(** ** Components *)

Lemma l_expect o k : (forall m, o = Some m -> low m k size) -> low (w_expect_path o) k size.
Proof. intros H. destruct o as [m|]; [now apply H|]. apply low_panic. Qed.
Lemma l_component_selectors sels : low (w_component_selectors sels) 0 (fun r => sum size r).
Proof.
  unfold w_component_selectors. destruct (partition sel_is_class sels) as [classes ids].
  apply (low_bind _ _ 0 0 (fun r => sum size r)); [|lia|].
  - apply l_seq0. intros s. do 2 apply low_pay. apply l_expect. intros m Hm. apply l_any_attr in Hm. eapply low_le; [exact Hm| |auto]. cbn [class_directive d_value u_opt]. lia.
  - intros cl. destruct ids as [|i ids]; [apply low_ret; lia|]. apply low_pay. cbv zeta. do 2 apply low_pay.
    apply (low_bind _ _ 0 (sum size cl) size); [|lia|].
    + apply l_expect. intros m Hm. apply l_any_attr in Hm. exact Hm.
    + intros t. apply low_ret. rewrite sum_app, sum_cons, sum_nil. lia.
Qed.
Definition parts (p : list tt * list (list tt) * list tt) : nat := let '(a, b, c) := p in size a + sum size b + size c.
Lemma l_component_loop slot l : forall acc, low (w_component_attr_loop slot l acc) (parts acc + sum u_attr l) parts.
Proof.
  induction l as [|a l IH]; intros [[props dirs] clones]; cbn [w_component_attr_loop].
  - apply low_ret. lia.
  - rewrite sum_cons. destruct a as [a|d|ts]; cbn [u_attr].
    + eapply (low_bind _ _ _ (parts (props, dirs, clones) + sum u_attr l) size); [apply l_component_kv|lia|]. intros t. apply low_pay.
      eapply low_le; [apply IH| |reflexivity]. cbn [parts]. rewrite size_app. lia.
    + apply low_pay. destruct (String.eqb _ _).
      { apply low_skip. intros ?. apply (low_bind _ _ 0 (parts (props, dirs, clones) + sum u_attr l) size); [apply l_clone|lia|]. intros t. apply low_pay.
        eapply low_le; [apply IH| |reflexivity]. cbn [parts]. rewrite size_app. lia. }
      destruct slot; [apply low_skip; intros ?; eapply low_le; [apply IH|lia|reflexivity]|].
      destruct (w_directive_to_any_attr_path d) as [m|] eqn:Hm; [|apply low_skip; intros ?; eapply low_le; [apply IH|lia|reflexivity]].
      apply l_any_attr in Hm. eapply (low_bind _ _ _ (parts (props, dirs, clones) + sum u_attr l) size); [exact Hm|lia|]. intros t. apply low_pay.
      eapply low_le; [apply IH| |reflexivity]. cbn [parts]. rewrite sum_app, sum_cons, sum_nil. lia.
    + destruct slot; [apply low_skip; intros ?; eapply low_le; [apply IH|lia|reflexivity]|]. apply low_pay.
      eapply low_le; [apply IH| |reflexivity]. cbn [parts]. rewrite sum_app, sum_cons, sum_nil. lia.
Qed.

(** ** Slots *)

Definition held (m : list (ident * list (list tt))) : nat := sum (fun p => sum size (snd p)) m.
Lemma insert_held m k t : held (slot_insert m k t) = held m + size t.
Proof.
  unfold held. induction m as [|[k' l] m IH]; cbn [slot_insert].
  - rewrite sum_cons, !sum_nil. cbn [snd]. rewrite sum_cons, sum_nil. lia.
  - destruct (ident_eqb k k'); rewrite !sum_cons; cbn [snd]; [|lia]. rewrite sum_app, sum_cons, sum_nil. lia.
Qed.
Lemma get_held m : NoDup (map fst m) -> held m = sum (fun k => sum size (slot_get m k)) (map fst m).
Proof.
  unfold held. induction m as [|[k l] m IH]; intros H; [reflexivity|]. cbn [map fst] in *. inversion H as [|? ? Hn H']; subst. rewrite !sum_cons, (IH H'). cbn [slot_get snd].
  replace (ident_eqb k k) with true by (symmetry; now apply ident_eqb_iff). f_equal.
  apply Nat.le_antisymm; apply sum_le; intros a Ha; cbn [slot_get];
    (destruct (ident_eqb a k) eqn:He; [apply ident_eqb_iff in He; subst; contradiction|reflexivity]).
Qed.
Lemma l_collect (l : list (tag * WX (list tt))) us : lows (map snd l) us -> forall m, low (w_collect_slots l m) (held m + sum (fun u => u) us) held.
Proof.
  revert us. induction l as [|[t x] l IH]; intros us H m; cbn [w_collect_slots].
  - apply low_ret. lia.
  - cbn [map snd] in H. inversion H as [|? u ? us' Hx Hl]; subst. rewrite sum_cons. destruct t as [i|p|i|i|k]; try apply low_panic.
    destruct (get_ident p) as [i|].
    + apply (low_bind _ _ u (held m + sum (fun u => u) us') size); [exact Hx|lia|]. intros ts. apply low_pay.
      eapply low_le; [apply (IH _ Hl)| |reflexivity]. rewrite insert_held. lia.
    + apply low_pay. apply low_skip. intros ?. eapply low_le; [apply (IH _ Hl)| |reflexivity]. lia.
Qed.
Lemma collect_nodup (l : list (tag * WX (list tt))) : forall m m', NoDup (map fst m) -> x_out (snd (w_collect_slots l m)) = XRet m' -> NoDup (map fst m').
Proof.
  assert (Hb : forall A B (n : WX A) (f : A -> WX B) b, x_out (snd (x_bind n f)) = XRet b -> exists a, x_out (snd (f a)) = XRet b).
  { intros A B [k [[a| |w] d]] f b H; try discriminate. exists a. exact H. }
  induction l as [|[t x] l IH]; intros m m' Hm H; cbn [w_collect_slots] in H.
  - injection H as <-. exact Hm.
  - destruct t as [i|p|i|i|k]; try discriminate. destruct (get_ident p) as [i|].
    + apply Hb in H. destruct H as [ts H]. apply Hb in H. destruct H as [[] H]. apply IH in H; [exact H|]. now apply insert_nodup.
    + apply Hb in H. destruct H as [[] H]. apply Hb in H. destruct H as [[] H]. now apply IH in H.
Qed.
Lemma credit_commas l : credit (commas l) = sum size l.
Proof.
  induction l as [|x l IH]; [reflexivity|]. rewrite sum_cons. destruct l as [|y l]; [cbn [commas]; credits; rewrite sum_nil; lia|].
  change (commas (x :: y :: l)) with ([Splice x; Tok (pu ",")] ++ commas (y :: l)). rewrite credit_app, IH. credits. lia.
Qed.
Lemma l_slot_method k l : low (w_slot_method k l) (sum size l) size.
Proof.
  unfold w_slot_method. cbv zeta. apply low_pay. destruct (new_raw _) as [i|]; [|apply low_panic].
  apply (low_bind _ _ (sum size l) 0 size); [|lia|intros r; apply low_pay; apply low_ret; lia].
  assert (Hm : forall c n, credit c <= n -> low (quote (q_method i
                 (fixed ([pu "<"; TGroup Bracket [kw "_"]; pu ">"] ++ colon2 ++ [kw "into_vec"]) ++
                  [Grp Paren (fixed (gpath ["std"; "boxed"; "Box"; "new"]) ++ [Grp Paren [Grp Bracket c]])]))) n size).
  { intros c n Hn. apply low_quote. credits. lia. }
  destruct l as [|s [|s' l]].
  - apply Hm. apply le_n.
  - apply low_quote. rewrite sum_cons, sum_nil. credits. lia.
  - apply Hm. rewrite credit_commas. apply le_n.
Qed.
Lemma low_bind_ret {A B} (m : WX A) (g : A -> WX B) k k' f h K :
  low m k f -> k + k' <= K -> (forall a, x_out (snd m) = XRet a -> low (g a) (f a + k') h) -> low (x_bind m g) K h.
Proof.
  intros Hm HK Hg b. destruct m as [n [[a| |w] d]]; cbn; try discriminate. intros Hb.
  specialize (Hm a eq_refl). specialize (Hg a eq_refl b Hb). cbn [fst] in *. lia.
Qed.
Lemma l_slots E at_ (l : list (tag * WX (list tt))) us : env_ok E -> lows (map snd l) us -> low (w_slots_to_tokens E at_ l) (sum (fun u => u) us) size.
Proof.
  intros (_ & _ & HE) H. unfold w_slots_to_tokens. eapply (low_bind_ret _ _ _ 0); [apply (l_collect _ _ H)|unfold held; rewrite sum_nil; lia|].
  intros m Hm. apply collect_nodup in Hm; [|constructor]. rewrite Nat.add_0_r.
  apply (low_bind _ _ (held m) 0 (fun r => sum size r)); [|lia|intros r; apply low_ret; rewrite size_concat; lia].
  eapply low_le; [apply (l_seq _ (map (fun k => sum size (slot_get m k)) (slot_order E at_ (map fst m)))) with (f := size)| |reflexivity].
  - generalize (slot_order E at_ (map fst m)). intros ks. induction ks as [|k ks IH]; cbn [map]; constructor; [apply l_slot_method|exact IH].
  - rewrite sum_map, (sum_perm _ _ _ (Permutation_sym (HE at_ (map fst m)))), (get_held m Hm). lia.
Qed.

(** ** Elements *)

Definition u_args (a : option (list tt)) : nat := match a with Some a => size a | None => 0 end.
Lemma l_xml t sels attrs nodes us m : w_xml_to_tokens t sels attrs nodes = Some m ->
  match nodes with Some ns => lows ns us | None => True end ->
  low m (sum u_attr attrs + sum (fun u => u) us) size.
Proof.
  unfold w_xml_to_tokens. destruct (w_xml_tag_path t) as [tp|] eqn:Ht; [|discriminate]. intros H. injection H as <-. intros Hn.
  assert (Htp : low tp 0 size).
  { unfold w_xml_tag_path in Ht. destruct (xml_tag_path t); [|discriminate]. injection Ht as <-. apply low_quote. rewrite credit_fixed. lia. }
  apply (low_bind _ _ 0 (sum u_attr attrs + sum (fun u => u) us) size); [exact Htp|lia|]. intros tp'.
  apply (low_bind _ _ 0 (size tp' + sum u_attr attrs + sum (fun u => u) us) size); [apply l_xml_selectors|lia|]. intros sel.
  eapply (low_bind _ _ _ (size tp' + size sel + sum (fun u => u) us) triple); [apply l_xml_loop|cbn [triple]; change (size []) with 0; lia|]. intros [[kvs dirs] sps].
  apply (low_bind _ _ (sum (fun u => u) us) (triple (kvs, dirs, sps) + size tp' + size sel) size); [|lia|].
  - destruct nodes as [ns|]; [apply (l_xml_children _ _ Hn)|apply l_nil].
  - intros ch. apply low_quote. cbn [map]. credits. cbn [triple]. lia.
Qed.
Lemma l_component E at_ slot t sels attrs args nodes us slots vs : env_ok E ->
  match nodes with Some ns => lows ns us | None => True end ->
  match slots with Some l => lows (map snd l) vs | None => True end ->
  low (w_expect_path (w_component_to_tokens E at_ slot t sels attrs args nodes slots))
    (sum u_attr attrs + u_args args + sum (fun u => u) us + sum (fun u => u) vs) size.
Proof.
  intros HE Hn Hs. unfold w_component_to_tokens. destruct t as [i|p|i|i|k]; cbn [w_expect_path]; try apply low_panic.
  apply low_skip. intros p'. set (U := sum (fun u => u) us) in *. set (V := sum (fun u => u) vs) in *.
  apply (low_bind _ _ 0 (sum u_attr attrs + u_args args + U + V) (fun r => sum size r)); [|lia|].
  { destruct slot; [|apply l_component_selectors]. destruct sels; [apply low_ret; rewrite sum_nil; lia|]. apply low_skip. intros ?. apply low_ret. rewrite sum_nil. lia. }
  intros dirs0. eapply (low_bind _ _ _ (u_args args + U + V) parts); [apply l_component_loop|cbn [parts]; change (size []) with 0; lia|].
  intros [[props dirs] clones]. cbn [parts].
  apply (low_bind _ _ (U + u_args args + size clones) (size props + sum size dirs + V) size); [|lia|].
  { destruct nodes as [[|n ns]|]; [apply l_nil| |apply l_nil]. apply l_component_children. exact Hn. }
  intros ch. apply (low_bind _ _ V (size props + sum size dirs + size ch) size); [|lia|].
  { destruct slots as [l|]; [apply (l_slots _ _ _ _ HE Hs)|apply l_nil]. }
  intros sl. assert (Hw := weight_size (path_tokens p')). apply low_pay.
  apply (low_quote_then _ _ _ (size props + sum size dirs + size ch + size sl + weight (path_tokens p'))); [credits; lia|]. intros bd.
  destruct slot.
  - apply low_quote. cbn [map]. credits. lia.
  - apply low_pay. apply (low_quote_then _ _ _ (size bd + size props + sum size dirs + size ch + size sl + weight (path_tokens p'))); [credits; lia|]. intros pb.
    apply low_quote. cbn [map]. credits. rewrite credit_each. lia.
Qed.
Fixpoint u_elem (e : element) : nat :=
  match e with
  | Element t sels attrs args ch =>
      sum u_attr attrs + u_args args +
      match ch with
      | Some l => sum (fun c => match c with CValue v => u_value v | CElement e | CSlot e => u_elem e end) l
      | None => 0
      end
  end.
Definition u_child (c : child) : nat := match c with CValue v => u_value v | CElement e | CSlot e => u_elem e end.
Lemma u_elem_eq t sels attrs args ch : u_elem (Element t sels attrs args ch) = sum u_attr attrs + u_args args + sum u_child (child_list ch).
Proof. destruct ch; reflexivity. Qed.
Definition elem_low (E : env) (e : element) : Prop := forall at_ slot, low (w_expand_element E at_ slot e) (u_elem e) size.
Lemma l_node E at_ c : (forall e, c = CElement e -> elem_low E e) -> low (w_expand_node E at_ c) (u_child c) size.
Proof.
  intros He. destruct c as [v|e|e]; cbn [w_expand_node u_child]; [apply l_render, l_value|apply l_render, (He e eq_refl)|apply l_nil].
Qed.
Lemma l_nodes E at_ l : (forall e, In (CElement e) l -> elem_low E e) -> forall n,
  lows (w_expand_nodes E at_ n l) (map u_child (filter (fun c => negb (is_slot c)) l)).
Proof.
  induction l as [|c l IH]; intros H n; [constructor|]. assert (IH' := IH (fun e Hin => H e (or_intror Hin)) (S n)).
  destruct c as [v|e|e]; cbn [w_expand_nodes filter is_slot negb map]; [| |exact IH']; (constructor; [|exact IH']); apply l_node; intros e' He; apply H; rewrite He; now left.
Qed.
Lemma l_slot_list E at_ l : (forall e, In (CSlot e) l -> elem_low E e) -> forall n,
  lows (map snd (w_expand_slots E at_ n l)) (map u_child (filter is_slot l)).
Proof.
  induction l as [|c l IH]; intros H n; [constructor|]. assert (IH' := IH (fun e Hin => H e (or_intror Hin)) (S n)).
  destruct c as [v|e|e]; cbn [w_expand_slots filter is_slot map snd]; [exact IH'|exact IH'|]. constructor; [|exact IH']. apply (H e (or_introl eq_refl)).
Qed.
Lemma u_split l : sum (fun u => u) (map u_child (filter (fun c => negb (is_slot c)) l)) + sum (fun u => u) (map u_child (filter is_slot l)) = sum u_child l.
Proof. induction l as [|c l IH]; [reflexivity|]. cbn [filter]. rewrite sum_cons, <- IH. destruct (is_slot c); cbn [negb map]; rewrite sum_cons; lia. Qed.

Theorem l_element E e : env_ok E -> elem_low E e.
Proof.
  intros HE. induction e as [t sels attrs args ch IHe IHs] using element_children_ind. intros at_ slot.
  rewrite expand_eq. apply low_pay. eapply low_le with (k := u_elem (Element t sels attrs args ch)) (f := size); [|lia|auto]. rewrite u_elem_eq.
  assert (Hn : match option_map (w_expand_nodes E at_ 0) ch with Some ns => lows ns (map u_child (filter (fun c => negb (is_slot c)) (child_list ch))) | None => True end).
  { destruct ch as [l|]; cbn [option_map]; [|exact I]. now apply l_nodes. }
  assert (Hs : match option_map (w_expand_slots E at_ 0) ch with Some ns => lows (map snd ns) (map u_child (filter is_slot (child_list ch))) | None => True end).
  { destruct ch as [l|]; cbn [option_map]; [|exact I]. now apply l_slot_list. }
  assert (Hu := u_split (child_list ch)). unfold w_element_tokens. destruct slot.
  - eapply low_le; [apply (l_component E at_ true t sels attrs args _ _ _ _ HE Hn Hs)|lia|auto].
  - apply (low_bind _ _ (sum u_attr attrs + u_args args + sum u_child (child_list ch)) 0 size); [|lia|intros r; apply low_pay; apply low_ret; lia].
    destruct (w_xml_to_tokens _ _ _ _) as [m|] eqn:Hm.
    + eapply low_le; [apply (l_xml _ _ _ _ _ _ Hm Hn)|lia|auto].
    + eapply low_le; [apply (l_component E at_ false t sels attrs args _ _ _ _ HE Hn Hs)|lia|auto].
Qed.

(** ** Views *)

Theorem l_root E cs out : env_ok E -> x_out (root_tokens E cs) = XRet out -> size out <= expand_steps E cs + sum u_child cs.
Proof.
  intros HE. rewrite <- same_root. unfold expand_steps.
  assert (Hall : forall e, elem_low E e) by (intros; now apply l_element).
  enough (low (w_root_tokens E cs) (sum u_child cs) size) as H by (intros Ho; specialize (H out Ho); lia).
  unfold w_root_tokens. apply low_pay. eapply low_le with (k := sum u_child cs) (f := size); [|lia|auto]. cbv zeta.
  assert (Hf : low (l <- x_seq (w_expand_nodes E [] 0 cs) ;; fragment <- w_children_fragment_tokens l ;;
      quote [Grp Brace (fixed [pu "#"; TGroup Bracket [kw "allow"; par [kw "unused_braces"]]] ++ [Splice fragment])])%xwork (sum u_child cs) size).
  { assert (Hu := u_split cs). eapply (low_bind _ _ _ 0); [apply (l_seq _ _ _ (l_nodes E [] cs (fun e _ => Hall e) 0))|lia|]. intros l. cbn beta. rewrite Nat.add_0_r.
    apply (low_bind _ _ (sum size l) 0 size); [apply l_fragment|lia|]. intros f. apply low_quote. credits. lia. }
  destruct cs as [|c [|c' cs]].
  - exact Hf.
  - rewrite sum_cons, sum_nil, Nat.add_0_r. destruct c as [v|e|e].
    3: { apply low_pay. apply low_abort. }
    all: eapply (low_bind _ _ _ 0 size); [apply l_node; intros; apply Hall|lia|]; intros ts; apply low_quote; credits; lia.
  - destruct (existsb is_slot (c :: c' :: cs)); [|exact Hf]. apply low_pay. apply low_abort.
Qed.
