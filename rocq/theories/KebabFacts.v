(** Reading kebab-case names: [parse_kebab] against [name_phrase]. *)
From Verif Require Export Monad.

Definition is_word (t : tt) : Prop :=
  match t with TIdent _ => True | TLit LkInt _ => True | _ => False end.
Definition stops (e : bool) (follow : list tt) : Prop :=
  match follow with
  | t :: _ => ~ punct "-" t /\ (e = true -> ~ is_word t)
  | [] => True
  end.
Definition raw_diags (ts : list tt) : list diag :=
  flat_map (fun t => match t with TIdent (Id true _) => [DRawInKebab] | _ => [] end) ts.

Lemma append_assoc a b c : ((a ++ b) ++ c)%string = (a ++ (b ++ c))%string.
Proof. induction a; cbn; congruence. Qed.
Lemma append_nil a : (a ++ "")%string = a.
Proof. induction a; cbn; congruence. Qed.
Lemma name_text_app a b : name_text (a ++ b) = (name_text a ++ name_text b)%string.
Proof. induction a; cbn; [reflexivity|]. unfold name_text in *. rewrite IHa. now rewrite append_assoc. Qed.
Lemma word_count_app a b : word_count (a ++ b) = word_count a + word_count b.
Proof. unfold word_count. now rewrite filter_app, app_length. Qed.
Lemma raw_diags_app a b : raw_diags (a ++ b) = raw_diags a ++ raw_diags b.
Proof. apply flat_map_app. Qed.

Lemma raw_diags_nil ts : raw_diags ts = [] <-> Forall (fun t => ~ raw_token t) ts.
Proof.
  induction ts as [|t ts IH]; cbn; [split; auto|].
  rewrite Forall_cons_iff, app_nil_inv, IH. unfold raw_token.
  destruct t as [[[|] n]| | |]; split; intros [H1 H2]; split; auto; try discriminate;
    try (intros [? ?]; discriminate). exfalso. apply H1. eauto.
Qed.

(** ** [run] *)

Lemma run_app b a m c e : run b a m -> run m c e -> run b (a ++ c) e.
Proof. induction 1; cbn; intros; auto; constructor; auto. Qed.

Lemma run_det b ts e e' : run b ts e -> run b ts e' -> e = e'.
Proof.
  intros H. revert e'. induction H; intros e' H'; inversion H'; subst; auto.
Qed.

Lemma run_split b a c e : run b (a ++ c) e -> exists m, run b a m /\ run m c e.
Proof.
  revert b. induction a as [|t a IH]; cbn; intros b H.
  - exists b. split; [constructor|auto].
  - inversion H; subst; edestruct IH as (m & ? & ?); eauto; exists m; split; auto; constructor; auto.
Qed.

Lemma run_one e t e' : run e [t] e' <->
  (punct "-" t /\ e' = true) \/ (e = true /\ is_word t /\ e' = false).
Proof.
  split.
  - intros H. inversion H; subst; inversion H4 || inversion H3 || idtac; subst.
    all: try match goal with h : run _ [] _ |- _ => inversion h; subst end.
    + left. split; auto. red. eauto.
    + right. cbn. auto.
    + right. cbn. auto.
  - intros [[[sp ->] ->] | (-> & Hw & ->)].
    + repeat constructor.
    + destruct t as [| |[]|]; try contradiction; repeat constructor.
Qed.

Lemma stops_iff b ts e follow :
  run b ts e ->
  stops e follow <->
  match follow with t :: _ => ~ exists e', run b (ts ++ [t]) e' | [] => True end.
Proof.
  intros H. destruct follow as [|t r]; cbn; [tauto|]. split.
  - intros [H1 H2] [e' H']. apply run_split in H'. destruct H' as (m & Ha & Hb).
    rewrite (run_det _ _ _ _ Ha H) in Hb. apply run_one in Hb.
    destruct Hb as [[? ?]|(? & ? & ?)]; [tauto|]. apply H2 in H3; tauto.
  - intros Hn. split.
    + intros Hp. apply Hn. exists true. eapply run_app; eauto. apply run_one. auto.
    + intros -> Hw. apply Hn. exists false. eapply run_app; eauto. apply run_one. auto.
Qed.

(** Phrases and their end states. *)
Inductive phrase_end : list tt -> bool -> Prop :=
| pe_ident i ts e : run false ts e -> phrase_end (TIdent i :: ts) e
| pe_dash sp ts e : run true ts e -> phrase_end (TPunct "-" sp :: ts) e.

Lemma name_phrase_end ts : name_phrase ts <-> exists e, phrase_end ts e.
Proof.
  split.
  - intros []; eexists; econstructor; eauto.
  - intros [e []]; econstructor; eauto.
Qed.
Lemma phrase_end_det ts e e' : phrase_end ts e -> phrase_end ts e' -> e = e'.
Proof. intros [] H'; inversion H'; subst; eapply run_det; eauto. Qed.

Lemma phrase_snoc ts e t :
  phrase_end ts e -> name_phrase (ts ++ [t]) <-> punct "-" t \/ (e = true /\ is_word t).
Proof.
  intros H. rewrite name_phrase_end. split.
  - intros [e' He']. destruct H; inversion He'; subst;
      match goal with h : run _ (_ ++ [_]) _ |- _ => apply run_split in h; destruct h as (m & Ha & Hb) end;
      match goal with h : run ?b ?l ?e, h' : run ?b ?l ?m |- _ => rewrite (run_det _ _ _ _ h' h) in Hb end;
      apply run_one in Hb; tauto.
  - intros H1.
    assert (exists e', run e [t] e') as [e' He'].
    { destruct H1 as [Hp|[-> Hw]]; eexists; apply run_one; eauto. }
    exists e'. destruct H; cbn; constructor; eapply run_app; eauto.
Qed.

Lemma name_ends_iff ts e follow :
  phrase_end ts e -> name_ends ts follow <-> stops e follow.
Proof.
  intros H. destruct follow as [|t r]; cbn; [tauto|].
  rewrite (phrase_snoc _ _ _ H). destruct e; split; intuition congruence.
Qed.

(** ** The loop *)

Lemma segment_ident k i r :
  kebab_segment k (TIdent i :: r) =
  PR (Ret (Kebab (k_repr k ++ i_name i) (S (k_spans k)))) r
     (if i_raw i then [DRawInKebab] else []).
Proof. cbn. destruct (i_raw i); reflexivity. Qed.

Lemma segment_int k s r :
  kebab_segment k (TLit LkInt s :: r) = PR (Ret (Kebab (k_repr k ++ s) (S (k_spans k)))) r [].
Proof. reflexivity. Qed.

Lemma segment_neg k sp s r :
  kebab_segment k (TPunct "-" sp :: TLit LkInt s :: r) =
  PR (Ret (Kebab (k_repr k ++ "-" ++ s) (S (k_spans k)))) r [].
Proof. reflexivity. Qed.

Lemma segment_other k ts :
  match ts with t :: _ => ~ is_word t | [] => True end ->
  (forall sp s r, ts <> TPunct "-" sp :: TLit LkInt s :: r) ->
  kebab_segment k ts = PR (Ret k) ts [].
Proof.
  intros H1 H2. unfold kebab_segment, bind.
  destruct ts as [|[i|c sp|kd s|d l] r]; cbn in *; auto; try tauto.
  - unfold parse_lit_int, rollback_err, take_lit.
    destruct r as [|[|c' sp'|kd' s'|] r]; auto.
    destruct (Ascii.eqb c "-") eqn:Hc; auto.
    apply Ascii.eqb_eq in Hc; subst.
    destruct kd'; auto. exfalso. eapply H2. reflexivity.
  - destruct kd; auto; tauto.
Qed.

Lemma loop_step n second k ts :
  kebab_loop (S n) second k ts =
  (d <- rollback_err (parse_punct "-") ;;
   match d with
   | Some _ =>
       k' <- kebab_segment (Kebab (k_repr k ++ "-") (k_spans k)) ;;
       kebab_loop n false k'
   | None =>
       if negb (second && String.eqb (k_repr k) "-") then ret k
       else k' <- kebab_segment k ;; kebab_loop n false k'
   end)%parse ts.
Proof. reflexivity. Qed.

Lemma rollback_dash sp r :
  rollback_err (parse_punct "-") (TPunct "-" sp :: r) = PR (Ret (Some Datatypes.tt)) r [].
Proof. reflexivity. Qed.

Lemma rollback_nodash ts :
  ~ next_punct "-" ts -> rollback_err (parse_punct "-") ts = PR (Ret None) ts [].
Proof.
  intros H. eapply rollback_fail. apply parse_punct1_fail; auto. discriminate.
Qed.

Lemma bind_run {A B} (m : P A) (f : A -> P B) ts a r d :
  m ts = PR (Ret a) r d ->
  bind m f ts = PR (p_out (f a r)) (p_rest (f a r)) (d ++ p_diags (f a r)).
Proof. unfold bind. now intros ->. Qed.
Lemma bind_run0 {A B} (m : P A) (f : A -> P B) ts a r :
  m ts = PR (Ret a) r [] -> bind m f ts = f a r.
Proof. intros H. rewrite (bind_run _ _ _ _ _ _ H). now destruct (f a r). Qed.
Lemma bind_fail {A B} (m : P A) (f : A -> P B) ts e r d :
  m ts = PR (Fail e) r d -> bind m f ts = PR (Fail e) r d.
Proof. unfold bind. now intros ->. Qed.

Definition loop_result (k : kebab) (used rest : list tt) : pres kebab :=
  PR (Ret (Kebab (k_repr k ++ name_text used) (k_spans k + word_count used))) rest
     (raw_diags used).

Lemma dash_dec ts : {sp_r | exists sp r, sp_r = (sp, r) /\ ts = TPunct "-" sp :: r} + {~ next_punct "-" ts}.
Proof.
  destruct ts as [|[|c sp| |] r]; try (right; cbn; auto; fail);
    try (right; intros [? ?]; discriminate).
  destruct (ascii_dec c "-") as [->|Hc].
  - left. exists (sp, r). eauto.
  - right. intros [? H]. congruence.
Qed.

Lemma kebab_loop_spec n : forall second k b ts,
  List.length ts < n ->
  second && String.eqb (k_repr k) "-" = false ->
  (b = true -> match ts with t :: _ => ~ is_word t | [] => True end) ->
  exists used rest e, ts = used ++ rest /\ run b used e /\ stops e rest /\
    kebab_loop n second k ts = loop_result k used rest.
Proof.
  induction n as [n IH] using lt_wf_ind. intros second k b ts Hn Hs Hb.
  destruct n as [|n]; [lia|]. rewrite loop_step.
  destruct (dash_dec ts) as [[? (sp & r & _ & ->)]|Hd].
  2:{ rewrite (bind_run0 _ _ _ _ _ (rollback_nodash _ Hd)). rewrite Hs. cbn.
      exists [], ts, b. split; [auto|]. split; [constructor|]. split.
      - destruct ts; cbn in *; auto.
      - unfold ret, loop_result. cbn. rewrite append_nil, Nat.add_0_r. now destruct k. }
  rewrite (bind_run0 _ _ _ _ _ (rollback_dash _ _)).
  cbn [List.length] in Hn.
  set (k1 := Kebab (k_repr k ++ "-") (k_spans k)).
  (* after the dash: a word, [- int], or neither *)
  assert (Hcases :
    (exists t r', r = t :: r' /\ is_word t) \/
    (exists sp' s r', r = TPunct "-" sp' :: TLit LkInt s :: r') \/
    (match r with t :: _ => ~ is_word t | [] => True end /\
     forall sp' s r', r <> TPunct "-" sp' :: TLit LkInt s :: r')).
  { destruct r as [|t r']; [right; right; split; auto; discriminate|].
    destruct t as [i|c sp'|kd s|dd l].
    - left; exists (TIdent i), r'; cbn; auto.
    - destruct r' as [|[| |kd s|] r'']; try (right; right; split; cbn; auto; discriminate).
      destruct kd; try (right; right; split; cbn; auto; discriminate).
      destruct (ascii_dec c "-") as [->|Hc].
      + right; left; eauto.
      + right; right; split; cbn; auto. congruence.
    - destruct kd; try (right; right; split; cbn; auto; discriminate).
      left; eexists _, r'; split; [reflexivity|]; cbn; auto.
    - right; right; split; cbn; auto; discriminate. }
  destruct Hcases as [(t & r' & -> & Hw) | [(sp' & s & r' & ->) | (Hw & Hneg)]].
  - destruct t as [i| |kd s|]; try (cbn in Hw; contradiction).
    + destruct (IH n ltac:(lia) false (Kebab (k_repr k1 ++ i_name i) (S (k_spans k1))) false r')
        as (used & rest & e & -> & Hr & Hst & Heq);
        [cbn in *; lia | reflexivity | discriminate |].
      exists (TPunct "-" sp :: TIdent i :: used), rest, e.
      split; [reflexivity|]. split; [repeat constructor; auto|]. split; [auto|].
      rewrite (bind_run _ _ _ _ _ _ (segment_ident _ _ _)), Heq.
      unfold loop_result. cbn. rewrite !append_assoc.
      f_equal; [do 2 f_equal; unfold word_count; cbn; lia|]. destruct i as [[] ?]; reflexivity.
    + destruct kd; try contradiction.
      destruct (IH n ltac:(lia) false (Kebab (k_repr k1 ++ s) (S (k_spans k1))) false r')
        as (used & rest & e & -> & Hr & Hst & Heq);
        [cbn in *; lia | reflexivity | discriminate |].
      exists (TPunct "-" sp :: TLit LkInt s :: used), rest, e.
      split; [reflexivity|]. split; [repeat constructor; auto|]. split; [auto|].
      rewrite (bind_run _ _ _ _ _ _ (segment_int _ _ _)), Heq.
      unfold loop_result. cbn. rewrite !append_assoc.
      f_equal; do 2 f_equal; unfold word_count; cbn; lia.
  - destruct (IH n ltac:(lia) false (Kebab (k_repr k1 ++ "-" ++ s) (S (k_spans k1))) false r')
      as (used & rest & e & -> & Hr & Hst & Heq);
      [cbn in *; lia | reflexivity | discriminate |].
    exists (TPunct "-" sp :: TPunct "-" sp' :: TLit LkInt s :: used), rest, e.
    split; [reflexivity|]. split; [repeat constructor; auto|]. split; [auto|].
    rewrite (bind_run _ _ _ _ _ _ (segment_neg _ _ _ _)), Heq.
    unfold loop_result. cbn. rewrite !append_assoc. cbn. rewrite ?append_assoc.
    f_equal; do 2 f_equal; unfold word_count; cbn; lia.
  - destruct (IH n ltac:(lia) false k1 true r)
      as (used & rest & e & -> & Hr & Hst & Heq);
      [cbn in *; lia | reflexivity | auto |].
    exists (TPunct "-" sp :: used), rest, e.
    split; [reflexivity|]. split; [repeat constructor; auto|]. split; [auto|].
    rewrite (bind_run _ _ _ _ _ _ (segment_other _ _ Hw Hneg)), Heq.
    unfold loop_result. cbn. rewrite !append_assoc. reflexivity.
Qed.

(** The part after the first token of a name. *)
Definition name_result (used rest : list tt) : pres kebab :=
  PR (Ret (Kebab (name_text used) (section_count used))) rest (raw_diags (tl used)).

Definition starts_name (ts : list tt) : Prop := next_ident ts \/ next_punct "-" ts.

(** [parse_kebab] reads the longest name, or fails without moving. *)
Lemma parse_kebab_fail ts : ~ starts_name ts -> parse_kebab ts = PR (Fail (EKebab (found_in ts))) ts [].
Proof.
  intros H. unfold parse_kebab.
  assert (rollback_err parse_any ts = PR (Ret None) ts []) as H1.
  { destruct ts as [|[| | |] ?]; try reflexivity. exfalso. apply H. left. exact I. }
  rewrite (bind_run0 _ _ _ _ _ H1). cbn beta iota. apply bind_fail.
  rewrite (bind_run0 _ _ _ _ _ (rollback_nodash ts ltac:(intros h; apply H; now right))).
  reflexivity.
Qed.

Lemma lex_ident_not_dash s : lex_ident s -> s <> "-"%string.
Proof.
  intros H ->. cbn in H. destruct H as [[|[|[|]]] _]; unfold upper_char, lower_char, code_in in *;
    cbn in *; try lia. discriminate.
Qed.

Lemma parse_kebab_run ts :
  (match ts with t :: _ => wf_tt t | [] => True end) -> starts_name ts ->
  exists used rest e, ts = used ++ rest /\ phrase_end used e /\ stops e rest /\
    parse_kebab ts = name_result used rest.
Proof.
  intros Hwf Hs. unfold parse_kebab.
  destruct ts as [|[i|c sp|kd s|d l] r].
  - destruct Hs as [[]|[]].
  - (* identifier *)
    rewrite (bind_run0 (rollback_err parse_any) _ (TIdent i :: r) (Some i) r eq_refl). cbn beta iota.
    rewrite (bind_run0 (ret (Kebab (i_name i) 1)) _ r _ r eq_refl).
    destruct (kebab_loop_spec (S (S (List.length (TIdent i :: r)))) true (Kebab (i_name i) 1) false r)
      as (used & rest & e & -> & Hr & Hst & Heq); [cbn; lia| |discriminate|].
    { cbn [k_repr andb]. apply String.eqb_neq. apply lex_ident_not_dash. apply Hwf. }
    exists (TIdent i :: used), rest, e. split; [reflexivity|]. split; [constructor; auto|].
    split; [auto|]. cbn [List.length] in Heq |- *. rewrite Heq. unfold loop_result, name_result. reflexivity.
  - (* dash *)
    destruct Hs as [[]|[sp' Heq]]. inversion Heq; subst c sp'. clear Heq Hwf.
    rewrite (bind_run0 (rollback_err parse_any) _ (TPunct "-" sp :: r) None (TPunct "-" sp :: r) eq_refl). cbn beta iota.
    rewrite (bind_run0 _ _ (TPunct "-" sp :: r) (Kebab "-" 1) r); [|reflexivity].
    cbn [List.length]. rewrite loop_step.
    destruct (dash_dec r) as [[? (sp' & r' & _ & ->)]|Hd].
    + (* a second dash: same as a loop entered in the middle *)
      destruct (kebab_loop_spec (S (S (S (List.length (TPunct "-" sp' :: r'))))) false (Kebab "-" 1) true
                  (TPunct "-" sp' :: r'))
        as (used & rest & e & Hu & Hr & Hst & Heq); [cbn; lia|reflexivity|cbn; auto|].
      rewrite loop_step in Heq.
      exists (TPunct "-" sp :: used), rest, e. split; [cbn; congruence|]. split; [constructor; auto|].
      split; [auto|].
      rewrite (bind_run0 _ _ _ _ _ (rollback_dash _ _)) in Heq.
      rewrite (bind_run0 _ _ _ _ _ (rollback_dash _ _)). cbn [List.length] in *.
      cbn beta iota in *. rewrite Heq.
      unfold loop_result, name_result. reflexivity.
    + rewrite (bind_run0 _ _ _ _ _ (rollback_nodash _ Hd)). cbn [k_repr String.eqb andb negb Ascii.eqb Bool.eqb].
      assert (Hcases : (exists t r', r = t :: r' /\ is_word t) \/
                       (match r with t :: _ => ~ is_word t | [] => True end)).
      { destruct r as [|t r']; [now right|].
        destruct t as [i|c sp'|kd s|dd l]; try (right; cbn; tauto); [left; exists (TIdent i), r'; cbn; auto|].
        destruct kd; try (right; cbn; tauto). left; eexists _, r'; cbn; split; [reflexivity|]; cbn; auto. }
      destruct Hcases as [(t & r' & -> & Hw)|Hw].
      * destruct t as [i| |kd s|]; try (cbn in Hw; contradiction).
        -- rewrite (bind_run _ _ _ _ _ _ (segment_ident _ _ _)).
           destruct (kebab_loop_spec (S (S (List.length (TIdent i :: r')))) false
                       (Kebab ("-" ++ i_name i) 2) false r')
             as (used & rest & e & -> & Hr & Hst & Heq); [cbn; lia|reflexivity|discriminate|].
           exists (TPunct "-" sp :: TIdent i :: used), rest, e.
           split; [reflexivity|]. split; [repeat constructor; auto|]. split; [auto|].
           cbn [k_repr k_spans]. rewrite Heq. unfold loop_result, name_result. cbn.
           f_equal. destruct i as [[] ?]; reflexivity.
        -- destruct kd; try contradiction.
           rewrite (bind_run _ _ _ _ _ _ (segment_int _ _ _)).
           destruct (kebab_loop_spec (S (S (List.length (TLit LkInt s :: r')))) false
                       (Kebab ("-" ++ s) 2) false r')
             as (used & rest & e & -> & Hr & Hst & Heq); [cbn; lia|reflexivity|discriminate|].
           exists (TPunct "-" sp :: TLit LkInt s :: used), rest, e.
           split; [reflexivity|]. split; [repeat constructor; auto|]. split; [auto|].
           cbn [k_repr k_spans]. rewrite Heq. reflexivity.
      * rewrite (bind_run _ _ _ _ _ _ (segment_other (Kebab "-" 1) r Hw
                   ltac:(intros ? ? ? ->; apply Hd; red; eexists; reflexivity))).
        destruct (kebab_loop_spec (S (S (List.length r))) false (Kebab "-" 1) true r)
          as (used & rest & e & -> & Hr & Hst & Heq); [lia|reflexivity|auto|].
        exists (TPunct "-" sp :: used), rest, e.
        split; [reflexivity|]. split; [constructor; auto|]. split; [auto|].
        rewrite Heq. reflexivity.
  - destruct Hs as [[]|[? H]]; discriminate.
  - destruct Hs as [[]|[? H]]; discriminate.
Qed.
