(** For examples: the environments of [SLex.v] meet [senv_ok]. *)
From Verif Require Import SpecGrammar SpecSpan ExampleFacts.
From Verif Require Export SLex.
Open Scope list_scope.

Lemma erases_app a b : erases (a ++ b) = erases a ++ erases b.
Proof. apply map_app. Qed.
Lemma erases_firstn n l : erases (firstn n l) = firstn n (erases l).
Proof. unfold erases. now rewrite firstn_map. Qed.
Lemma erases_skipn n l : erases (skipn n l) = skipn n (erases l).
Proof. unfold erases. now rewrite skipn_map. Qed.

Lemma here_points E sc ts : here sc ts = sc \/ points E ts (here sc ts).
Proof.
  destruct ts as [|[s i|s c sp|s k v|s d l] r]; [now left| | | |]; right; apply points_at; cbn; auto.
Qed.
Lemma points_more E a b s : points E b s -> points E (a ++ b) s.
Proof.
  induction 1 as [s H|x y s _ Hx _ Hy Hj].
  - apply points_at. unfold spans in *. rewrite flat_map_app. apply in_or_app. now right.
  - now apply (points_range _ _ x y).
Qed.

Theorem with_spans_ok E j : env_ok E -> (forall s c, j s s = Some c -> c = s) ->
  senv_ok (with_spans E j).
Proof.
  intros HE Hj. split; [exact HE|]. destruct HE as (H1 & H2 & _). split; [|split; [|split; [|exact Hj]]].
  - intros sc ts. cbn. destruct (generic_args E (erases ts)) as [[g r]|r] eqn:Eg; f_equal.
    + destruct (H1 _ _ _ Eg) as (Ht & _). rewrite erases_firstn, erases_skipn, Ht.
      now rewrite firstn_app, Nat.sub_diag, firstn_all, firstn_O, app_nil_r, skipn_app, Nat.sub_diag, skipn_all.
    + destruct (H2 _ _ Eg) as (u & Ht). rewrite erases_skipn, Ht.
      replace (List.length ts) with (List.length (erases ts)) by apply map_length.
      rewrite Ht, app_length, Nat.add_sub, skipn_app, Nat.sub_diag, skipn_all. reflexivity.
  - intros sc ts g r. cbn. destruct (generic_args E (erases ts)) as [[g' r']|]; [|discriminate].
    intros [= <- <-]. symmetry. apply firstn_skipn.
  - intros sc ts r s. cbn. destruct (generic_args E (erases ts)) as [[g' r']|r']; [discriminate|].
    intros [= <- <-]. set (n := (List.length ts - List.length r')%nat).
    split; [exists (firstn n ts); symmetry; apply firstn_skipn|].
    destruct (here_points (with_spans E j) sc (skipn n ts)) as [?|H]; [now left|right].
    rewrite <- (firstn_skipn n ts) at 1. now apply points_more.
Qed.

Lemma SE0_ok : senv_ok SE0.
Proof. apply with_spans_ok; [exact E0_ok|discriminate]. Qed.
Lemma SE1_ok : senv_ok SE1.
Proof.
  apply with_spans_ok; [exact E0_ok|]. intros [|f lo hi] c; cbn; [congruence|].
  rewrite Nat.eqb_refl, Nat.min_id, Nat.max_id. congruence.
Qed.

(** Moving everything by [n] bytes. *)
Definition push (n : nat) (s : span) : span :=
  match s with Call => Call | Src f lo hi => Src f (lo + n) (hi + n) end.

Lemma stt_rec2 (Q : stt -> Prop) :
  (forall s i, Q (SIdent s i)) -> (forall s c sp, Q (SPunct s c sp)) -> (forall s k v, Q (SLit s k v)) ->
  (forall s d ts, Forall Q ts -> Q (SGroup s d ts)) -> forall t, Q t.
Proof.
  intros H1 H2 H3 H4. fix rec 1. intros [s i|s c sp|s k v|s d ts]; [apply H1|apply H2|apply H3|apply H4].
  induction ts as [|t r IH]; constructor; [apply rec|exact IH].
Qed.
Lemma erase_respan f t : erase (respan f t) = erase t.
Proof.
  induction t as [| | |s d ts IH] using stt_rec2; cbn; try reflexivity. f_equal. rewrite map_map.
  induction IH as [|t r Ht Hr IH]; cbn; congruence.
Qed.
Lemma erases_respans f ts : erases (respans f ts) = erases ts.
Proof. unfold erases, respans. rewrite map_map. apply map_ext, erase_respan. Qed.
Lemma here_respans f sc ts : here (f sc) (respans f ts) = f (here sc ts).
Proof. now destruct ts as [|[] r]. Qed.

Lemma with_spans_moves f E j : f Call = Call -> (forall a b, j (f a) (f b) = option_map f (j a b)) ->
  moves f (with_spans E j) (with_spans E j).
Proof.
  intros Hf Hj. split; [exact Hf|]. split; [reflexivity|]. split; [exact Hj|]. intros sc ts. cbn.
  rewrite erases_respans. destruct (generic_args E (erases ts)) as [[g r]|r].
  - unfold respans. now rewrite firstn_map, skipn_map.
  - unfold respans at 1 2 3. rewrite map_length, !skipn_map. f_equal. f_equal. unfold respans. rewrite skipn_map. apply here_respans.
Qed.
Lemma push_moves n : moves (push n) SE1 SE1.
Proof.
  apply with_spans_moves; [reflexivity|]. intros [|f lo hi] [|f' lo' hi']; cbn; try reflexivity.
  destruct (Nat.eqb f f'); cbn; [|reflexivity]. now rewrite Nat.add_min_distr_r, Nat.add_max_distr_r.
Qed.
