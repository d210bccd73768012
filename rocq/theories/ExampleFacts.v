(** The example environment [E0] satisfies [env_ok], and a computable check of
    [wf].  Used by examples only. *)
From Verif Require Export Lex Monad.
From Coq Require Import Permutation.
Open Scope list_scope.

Lemma scan_ok ts : forall d u r, scan d ts = Some (u, r) ->
  ts = u ++ r /\ forall r', scan d (u ++ r') = Some (u, r').
Proof.
  induction ts as [|t ts IH]; intros d u r H; [discriminate|].
  assert (Hgen : forall d', match scan d' ts with Some (u, r') => Some (t :: u, r') | None => None end = Some (u, r) ->
    exists u', u = t :: u' /\ ts = u' ++ r /\ forall r', scan d' (u' ++ r') = Some (u', r')).
  { intros d' Hd. destruct (scan d' ts) as [[u' r']|] eqn:Hs; [|discriminate]. inversion Hd; subst.
    apply IH in Hs. destruct Hs as [-> Hs]. eauto. }
  destruct t as [i|c sp|k s|dl g]; cbn [scan] in H.
  1,3,4: apply Hgen in H; destruct H as (u' & -> & -> & H); split; [reflexivity|];
    intros r'; cbn [app scan]; now rewrite H.
  destruct (Ascii.eqb c "<") eqn:H1.
  { apply Hgen in H. destruct H as (u' & -> & -> & H). split; [reflexivity|].
    intros r'. cbn [app scan]. now rewrite H1, H. }
  destruct (Ascii.eqb c ">") eqn:H2.
  { destruct d as [|[|d]]; [discriminate| |].
    - inversion H; subst. split; [reflexivity|]. intros r'. cbn [app scan]. now rewrite H1, H2.
    - apply Hgen in H. destruct H as (u' & -> & -> & H). split; [reflexivity|].
      intros r'. cbn [app scan]. now rewrite H1, H2, H. }
  apply Hgen in H. destruct H as (u' & -> & -> & H). split; [reflexivity|].
  intros r'. cbn [app scan]. now rewrite H1, H2, H.
Qed.

Theorem E0_ok : env_ok E0.
Proof.
  split; [|split].
  - intros ts g r H. cbn [generic_args E0] in *. unfold scan_args in H.
    destruct ts as [|[i|c sp|k s|d l] ts]; try discriminate.
    destruct (Ascii.eqb c "<") eqn:Hc; [|discriminate].
    destruct (scan 1 ts) as [[u r']|] eqn:Hs; [|discriminate]. inversion H; subst.
    apply scan_ok in Hs. destruct Hs as [-> Hs]. split; [reflexivity|].
    split; [exists sp; apply Ascii.eqb_eq in Hc; now subst|].
    intros r'. unfold scan_args. cbn [app]. now rewrite Hc, Hs.
  - intros ts r H. cbn [generic_args E0] in *. unfold scan_args in H.
    destruct ts as [|[i|c sp|k s|d l] ts]; try (inversion H; subst; now exists []).
    destruct (Ascii.eqb c "<") eqn:Hc; [|inversion H; subst; now exists []].
    destruct (scan 1 ts) as [[u r']|] eqn:Hs; [discriminate|]. inversion H; subst. now exists [TPunct c sp].
  - intros at_ ks. apply Permutation_refl.
Qed.

(** The same with the reverse iteration order. *)
Definition E1 : env := Env scan_args (fun _ ks => rev ks).
Theorem E1_ok : env_ok E1.
Proof.
  destruct E0_ok as (H1 & H2 & _). split; [exact H1|]. split; [exact H2|].
  intros at_ ks. apply Permutation_rev.
Qed.

Definition startb (c : ascii) : bool :=
  in_range "A" "Z" c || in_range "a" "z" c || Ascii.eqb c "_" || Nat.leb 128 (nat_of_ascii c).
Definition contb (c : ascii) : bool := startb c || in_range "0" "9" c.
Definition identb (s : string) : bool :=
  match chars s with [] => false | c :: r => startb c && forallb contb r end.
Definition intb (s : string) : bool :=
  match chars s with [] => false | c :: r => in_range "0" "9" c && forallb contb r end.
Fixpoint wfb_tt (t : tt) : bool :=
  match t with
  | TIdent i => identb (i_name i) && (negb (i_raw i) || negb (existsb (String.eqb (i_name i)) reserved_words))
  | TLit LkInt s => intb s
  | TGroup _ ts => forallb wfb_tt ts
  | _ => true
  end.
Definition wfb (ts : list tt) : bool := forallb wfb_tt ts.

Lemma between_code a b c : in_range a b c = true -> code_in (nat_of_ascii a) (nat_of_ascii b) c.
Proof. unfold in_range, char_code, code_in. rewrite andb_true_iff, !Nat.leb_le. tauto. Qed.
Lemma startb_ok c : startb c = true -> ident_start c.
Proof.
  unfold startb, ident_start. rewrite !orb_true_iff. intros [[[H|H]|H]|H].
  - left. apply between_code in H. exact H.
  - right. left. apply between_code in H. exact H.
  - right. right. left. now apply Ascii.eqb_eq.
  - right. right. right. now apply Nat.leb_le.
Qed.
Lemma contb_ok c : contb c = true -> ident_continue c.
Proof.
  unfold contb. rewrite orb_true_iff. intros [H|H]; [left; now apply startb_ok|right]. now apply between_code in H.
Qed.
Lemma contb_all r : forallb contb r = true -> Forall ident_continue r.
Proof. intros H. apply Forall_forall. intros c Hc. rewrite forallb_forall in H. apply contb_ok. auto. Qed.
Lemma wfb_tt_ok t : wfb_tt t = true -> wf_tt t.
Proof.
  revert t. fix rec 1. intros [i|c sp|k s|d l]; cbn [wfb_tt wf_tt]; auto.
  - intros H. apply andb_true_iff in H. destruct H as [H1 H2]. split.
    + unfold identb in H1. unfold lex_ident. destruct (chars (i_name i)); [discriminate|].
      apply andb_true_iff in H1. destruct H1. split; [now apply startb_ok|now apply contb_all].
    + intros Hr Hin. rewrite Hr in H2. cbn [negb orb] in H2. apply negb_true_iff in H2.
      assert (existsb (String.eqb (i_name i)) reserved_words = true); [|congruence].
      apply existsb_exists. exists (i_name i). split; auto. apply String.eqb_refl.
  - destruct k; auto. intros H1. unfold intb in H1. unfold wf_int. destruct (chars s); [discriminate|].
      apply andb_true_iff in H1. destruct H1. split; [now apply between_code in H|now apply contb_all].
  - induction l as [|t l IH]; cbn [forallb fold_right]; auto. intros H. apply andb_true_iff in H. destruct H.
    split; [now apply rec|auto].
Qed.
Lemma wfb_ok ts : wfb ts = true -> wf ts.
Proof. intros H. apply Forall_forall. intros t Ht. apply wfb_tt_ok. unfold wfb in H. rewrite forallb_forall in H. auto. Qed.
