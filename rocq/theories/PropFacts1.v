(** Helper definitions and lemmas for Properties1.v. *)
From Verif Require Export ParseInv.
From Coq Require Import Lia.
Open Scope list_scope.

(** One report per raw identifier. *)
Fixpoint raw_reports (ts : list tt) : list diag :=
  match ts with
  | [] => []
  | TIdent (Id true _) :: r => DRawInKebab :: raw_reports r
  | _ :: r => raw_reports r
  end.
Lemma raw_reports_eq ts : raw_diags ts = raw_reports ts.
Proof.
  induction ts as [|t ts IH]; [reflexivity|]. unfold raw_diags in *. cbn [flat_map raw_reports]. rewrite IH.
  destruct t as [[[] ?]| | |]; reflexivity.
Qed.

(** Equal up to the spacing of (top-level) punctuation. *)
Inductive same_but_spacing : tt -> tt -> Prop :=
| same_tok t : same_but_spacing t t
| same_punct c sp sp' : same_but_spacing (TPunct c sp) (TPunct c sp').

Lemma kebab_longest ts k r d : wf ts ->
  parse_kebab ts = PR (Ret k) r d <->
  exists used, ts = used ++ r /\ name_phrase used /\ name_ends used r /\
               k_repr k = name_text used /\ k_spans k = section_count used /\
               d = raw_reports (tl used).
Proof.
  intros Hw. rewrite (parse_kebab_iff ts k r d (wf_wf_head _ Hw)).
  split; intros (u & -> & Hp & He & H); exists u; repeat split; auto.
  - now destruct H as [-> _].
  - now destruct H as [-> _].
  - destruct H as [_ ->]. apply raw_reports_eq.
  - destruct k as [x y]. destruct H as (H1 & H2 & H3). cbn in *. now subst.
  - destruct H as (_ & _ & ->). symmetry. apply raw_reports_eq.
Qed.

Lemma name_phrase_prefix a b : name_phrase (a ++ b) -> a <> [] -> name_phrase a.
Proof.
  intros H Ha. destruct a as [|t a]; [congruence|]. cbn in H.
  inversion H as [i ts e Hr|sp ts e Hr]; subst; apply run_split in Hr; destruct Hr as (m & H1 & _);
    econstructor; eauto.
Qed.
Lemma prefix_cases {A} (a b c d : list A) : a ++ b = c ++ d ->
  (exists x, c = a ++ x /\ b = x ++ d) \/ (exists x y, a = c ++ y :: x /\ d = y :: x ++ b).
Proof.
  revert c. induction a as [|x a IH]; intros c H.
  - left. exists c. auto.
  - destruct c as [|y c].
    + right. cbn in *. exists a, x. auto.
    + cbn in H. inversion H; subst. destruct (IH c H2) as [(z & -> & ->)|(z & w & -> & ->)].
      * left. exists z. auto.
      * right. exists z, w. auto.
Qed.
Lemma name_longest n r n' r' : n ++ r = n' ++ r' -> name_phrase n -> name_ends n r -> name_phrase n' ->
  exists x, n = n' ++ x /\ r' = x ++ r.
Proof.
  intros H Hn He Hn'. destruct (prefix_cases _ _ _ _ H) as [(x & -> & ->)|(x & y & -> & ->)].
  - destruct x as [|t x]; [exists []; rewrite !app_nil_r; split; reflexivity|].
    exfalso. cbn in He. apply He. apply (name_phrase_prefix _ x); [|intros E; apply app_eq_nil in E; destruct E; discriminate].
    now rewrite <- app_assoc.
  - exists (y :: x). auto.
Qed.
Lemma kebab_maximal ts k r d n r' : wf ts -> parse_kebab ts = PR (Ret k) r d ->
  ts = n ++ r' -> name_phrase n -> List.length r <= List.length r'.
Proof.
  intros Hw H Ht Hn. apply kebab_longest in H; auto. destruct H as (u & Hu & Hp & He & _).
  rewrite Hu in Ht. destruct (name_longest _ _ _ _ Ht Hp He Hn) as (x & _ & ->). rewrite app_length. lia.
Qed.
Lemma kebab_failure ts : wf ts ->
  (~ next_ident ts /\ ~ next_punct "-" ts -> exists e, parse_kebab ts = PR (Fail e) ts []) /\
  (next_ident ts \/ next_punct "-" ts -> exists k r d, parse_kebab ts = PR (Ret k) r d).
Proof.
  intros Hw. split.
  - intros [H1 H2]. exists (EKebab (found_in ts)). apply parse_kebab_fail. intros [H|H]; tauto.
  - intros H. destruct (parse_kebab_cases ts (wf_wf_head _ Hw)) as [(u & r & -> & Hp & He & Heq)|[Hn _]]; [|now destruct Hn].
    rewrite Heq. unfold name_result. eauto.
Qed.

(** ** Spacing *)

Lemma same_sym t t' : same_but_spacing t t' -> same_but_spacing t' t.
Proof. intros []; constructor. Qed.
Lemma same_run b ts e : run b ts e -> forall ts', Forall2 same_but_spacing ts ts' -> run b ts' e.
Proof.
  induction 1; intros ts' H'; inversion H' as [|? ? ? ? Hs H1]; subst; [constructor|..];
    inversion Hs; subst; econstructor; eauto.
Qed.
Lemma same_name n n' : Forall2 same_but_spacing n n' -> name_phrase n -> name_phrase n'.
Proof.
  intros H Hn. inversion Hn; subst; inversion H as [|? ? ? ? Hs H1]; subst; inversion Hs; subst;
    econstructor; eapply same_run; eauto.
Qed.
Lemma same_all_sym n n' : Forall2 same_but_spacing n n' -> Forall2 same_but_spacing n' n.
Proof. induction 1; constructor; auto. now apply same_sym. Qed.
Lemma same_text n n' : Forall2 same_but_spacing n n' -> name_text n = name_text n'.
Proof.
  induction 1 as [|t t' n n' Hs H IH]; [reflexivity|]. rewrite (name_text_cons t n), (name_text_cons t' n'), IH.
  destruct Hs; reflexivity.
Qed.
Lemma same_words n n' : Forall2 same_but_spacing n n' -> word_count n = word_count n'.
Proof.
  induction 1 as [|t t' n n' Hs H IH]; [reflexivity|]. change (t :: n) with ([t] ++ n). change (t' :: n') with ([t'] ++ n').
  rewrite !word_count_app, IH. destruct Hs; reflexivity.
Qed.
Lemma same_raw n n' : Forall2 same_but_spacing n n' -> raw_diags n = raw_diags n'.
Proof.
  induction 1 as [|t t' n n' Hs H IH]; [reflexivity|]. change (t :: n) with ([t] ++ n). change (t' :: n') with ([t'] ++ n').
  rewrite !raw_diags_app, IH. destruct Hs; reflexivity.
Qed.
Lemma same_wf n n' : Forall2 same_but_spacing n n' -> wf n -> wf n'.
Proof.
  intros H Hw. induction H as [|t t' n n' Hs H IH]; [constructor|]. inversion Hw; subst. constructor.
  - destruct Hs; auto. - apply IH; auto.
Qed.
Lemma kebab_spacing ts ts' : wf ts -> Forall2 same_but_spacing ts ts' ->
  p_out (parse_kebab ts) = p_out (parse_kebab ts') /\
  p_diags (parse_kebab ts) = p_diags (parse_kebab ts') /\
  Forall2 same_but_spacing (p_rest (parse_kebab ts)) (p_rest (parse_kebab ts')).
Proof.
  intros Hw H. assert (Hw' := same_wf _ _ H Hw).
  destruct (parse_kebab_cases ts (wf_wf_head _ Hw)) as [(u & r & -> & Hp & He & Heq)|[Hn Heq]].
  - apply Forall2_app_inv_l in H. destruct H as (u' & r' & Hu & Hr & ->).
    assert (Heq' : parse_kebab (u' ++ r') = name_result u' r').
    { unfold name_result. apply parse_kebab_iff; [now apply wf_wf_head|]. exists u'. repeat split; auto.
      - eapply same_name; eauto.
      - destruct Hr as [|t t' r r' Hs Hr]; [exact I|]. cbn in *. intros Hb. apply He.
        eapply same_name; [|exact Hb]. apply Forall2_app; [now apply same_all_sym|]. constructor; auto. now apply same_sym. }
    rewrite Heq, Heq'. unfold name_result. cbn [p_out p_diags p_rest].
    rewrite (same_text _ _ Hu). repeat split; auto.
    + do 2 f_equal. destruct Hu as [|t t' u u' Hs Hu]; [reflexivity|]. cbn [section_count]. f_equal. now apply same_words.
    + destruct Hu as [|t t' u u' Hs Hu]; [reflexivity|]. now apply same_raw.
  - assert (Hn' : ~ starts_name ts').
    { intros Hs. apply Hn. destruct H as [|t t' ts ts' Ht H]; [exact Hs|].
      destruct Ht; [exact Hs|]. destruct Hs as [[]|[s Hs]]. inversion Hs; subst. right. now exists sp. }
    assert (Hf : found_in ts = found_in ts') by (destruct H as [|? ? ? ? []]; reflexivity).
    rewrite Heq, (parse_kebab_fail ts' Hn'), Hf. cbn. auto.
Qed.

Lemma tag_kinds E ts t r d : wf ts -> parse_tag E ts = PR (Ret t) r d ->
  (path_follows ts -> kind_of t = KComponent) /\
  (~ path_follows ts -> exists n, ts = n ++ r /\ name_phrase n /\ name_ends n r /\
                                  tag_kind_spec (name_text n) (kind_of t)).
Proof.
  intros Hw Ht.
  assert (Hq : ~ (exists c r, ts = TPunct c Joint :: r /\ c = "'"%char)).
  { intros (c & r' & -> & ->). unfold parse_tag in Ht. rewrite (bind_run0 _ _ _ _ _ eq_refl) in Ht. cbn beta in Ht.
    destruct (_ || _ || _); apply bind_ret_inv in Ht; destruct Ht as (x & r1 & ? & ? & Ht & _).
    - unfold parse_path in Ht. apply bind_ret_inv in Ht. destruct Ht as (l & r2 & ? & ? & Hl & Ht & _).
      inversion Hl; subst. apply bind_ret_inv in Ht. destruct Ht as (z & r3 & ? & ? & Ht & _).
      apply parse_seg_head in Ht. destruct Ht as [? Ht]. discriminate.
    - rewrite parse_kebab_fail in Ht; [discriminate|]. intros [[]|[? ?]]; discriminate. }
  unfold parse_tag in Ht. rewrite (bind_run0 _ _ _ _ _ eq_refl) in Ht. cbn beta in Ht.
  destruct (_ || _ || _) eqn:Hp.
  - apply path_test in Hp; auto. split; [|tauto]. intros _.
    apply bind_ret_inv in Ht. destruct Ht as (p & r1 & ? & ? & _ & Ht & _). inversion Ht; reflexivity.
  - assert (~ path_follows ts) by (intros Hx; apply path_test in Hx; auto; congruence).
    split; [tauto|]. intros _. apply bind_ret_inv in Ht. destruct Ht as (k & r1 & ? & ? & Hk & Ht & _).
    apply kebab_longest in Hk; auto. destruct Hk as (u & -> & Hu & He & Hx & _).
    assert (Hr : r1 = r /\ kind_of t = tag_kind_from (k_repr k)).
    { destruct (tag_kind_from (k_repr k));
        try (apply bind_ret_inv in Ht; destruct Ht as (i & r2 & ? & ? & Hs & Ht & _);
             unfold snake, or_panic in Hs; destruct (to_snake_ident k); inversion Hs; subst);
        inversion Ht; subst; auto. }
    destruct Hr as [-> Hr]. exists u. repeat split; auto. rewrite <- Hx. apply tag_kind_iff. auto.
Qed.

(** For examples: the levels of a stream with a single group. *)
Lemma level_two a b d pre post : (forall x, In x (pre ++ post) -> forall d l, x <> TGroup d l) ->
  (forall x, In x b -> forall d l, x <> TGroup d l) -> a = pre ++ TGroup d b :: post ->
  forall ts, level ts a -> ts = a \/ ts = b.
Proof.
  intros H1 H2 Ha ts Hl. induction Hl as [|d' inner outer input Hl IH Hin]; auto.
  destruct (IH Ha) as [->| ->].
  - rewrite Ha in Hin. apply in_app_or in Hin. cbn [In] in Hin. 
    destruct Hin as [Hin|[Hin|Hin]]; [|inversion Hin; auto|];
     edestruct H1; [apply in_or_app; eauto|reflexivity| apply in_or_app; eauto|reflexivity].
  - now edestruct H2; eauto.
Qed.
