(** Unfinished names, values and attributes (C66). *)
From Verif Require Import SpecStr SpecGrammar SpecContext SpecTyped TypedFacts.
From Verif Require Import Follow Context Swap Inv Fuel GrammarFacts GrammarFacts2 Monad Properties4.
From Coq Require Import Lia.
Open Scope list_scope.

Lemma cut_more x y z : cut x y -> cut (x ++ z) y.
Proof.
  intros H. destruct H.
  - rewrite <- app_assoc. apply cut_here.
  - rewrite <- app_assoc. cbn. now apply cut_in.
Qed.

(** ** Names *)

Lemma run_flat b a d g r e : ~ run b (a ++ TGroup d g :: r) e.
Proof. apply run_breaks. exact I. Qed.
Lemma name_flat ts y : name_phrase ts -> cut ts y -> exists z, ts = y ++ z.
Proof.
  intros Hn H. destruct H as [a b|a d x y b H]; [eauto|].
  exfalso. now apply (name_no_group a d x b).
Qed.
Lemma name_part ts k f y : name ts k f -> cut ts y -> y <> [] -> exists k', name y k' [].
Proof.
  intros (H1 & _ & H3 & _) Hc Hy. destruct (name_flat ts y H1 Hc) as (z & ->).
  exists (Kebab (name_text y) (section_count y)). split; [eapply phrase_prefix; eauto|]. split; [exact I|]. split; auto.
  destruct y as [|t y]; [congruence|]. cbn in *. now apply Forall_app in H3.
Qed.
Lemma name_not_colon ts k f : name ts k f -> ~ next_punct ":" (tl ts).
Proof.
  intros (H & _). inversion H; subst; cbn.
  - intros Hp. destruct ts0 as [|t ts0]; [contradiction|]. destruct Hp as [sp ->].
    assert (Hr : breaks_name (TPunct ":" sp)) by discriminate. now apply (run_breaks _ [] ts0 false e Hr).
  - intros Hp. destruct ts0 as [|t ts0]; [contradiction|]. destruct Hp as [sp' ->].
    assert (Hr : breaks_name (TPunct ":" sp')) by discriminate. now apply (run_breaks _ [] ts0 true e Hr).
Qed.
Lemma attr_alone y k : name y k [] -> attr_phrase y (AKv (KvAttr k (VLit (LitBool true)))) [].
Proof.
  intros H. rewrite <- (app_nil_r y). apply (at_kv y k [] None []); auto.
  - constructor. intros [].
  - intros _. rewrite !app_nil_r. eapply name_not_colon; eauto.
Qed.
Lemma attrs_one y a : attr_phrase y a [] -> attrs_phrase y [a] [].
Proof. intros H. rewrite <- (app_nil_r y). apply ats_cons; [exact H|]. now constructor. Qed.

(** ** Values *)

Definition loose (y : list tt) : Prop := (exists sp, y = [TPunct "-" sp]) \/ exists i, y = [TIdent i].
Lemma value_part ts v f y : value_phrase ts v f -> cut ts y -> y <> ts -> y <> [] ->
  (exists v', value_phrase y v' []) \/ loose y /\ (forall i, y = [TIdent i] -> exists b, ts = [TIdent i; TGroup Bracket b]).
Proof.
  intros H Hc Hn Hy.
  assert (Hone : forall t, ~ (exists d g, t = TGroup d g) -> cut [t] y -> ts = [t] -> False).
  { intros t Ht Hc' ->. destruct (cut_cons_inv _ _ _ Hc') as [->|[(y' & -> & Hx)|(d & g & g' & -> & _)]]; auto.
    - apply cut_nil in Hx. subst. congruence.
    - apply Ht. eauto. }
  inversion H; subst.
  - exfalso. eapply Hone; eauto. intros (? & ? & ?); discriminate.
  - destruct (cut_cons_inv _ _ _ Hc) as [->|[(y' & -> & Hx)|(d & g & g' & Hx & _)]]; [congruence| |discriminate].
    destruct (cut_cons_inv _ _ _ Hx) as [->|[(y'' & -> & Hx')|(d & g & g' & Hz & _)]]; [| |discriminate].
    + right. split; [left; eauto|]. intros i Hi. discriminate.
    + apply cut_nil in Hx'. subst. congruence.
  - exfalso. eapply Hone; eauto. intros (? & ? & ?); discriminate.
  - exfalso. eapply Hone; eauto. intros (? & ? & ?); discriminate.
  - destruct (cut_cons_inv _ _ _ Hc) as [->|[(y' & -> & Hx)|(d & g & g' & Hx & -> & _)]]; [congruence| |].
    + apply cut_nil in Hx. subst. congruence.
    + inversion Hx; subst. left. eexists. constructor.
  - destruct (cut_cons_inv _ _ _ Hc) as [->|[(y' & -> & Hx)|(d & g & g' & Hx & -> & _)]]; [congruence| |].
    + apply cut_nil in Hx. subst. congruence.
    + inversion Hx; subst. left. eexists. constructor.
  - destruct (cut_cons_inv _ _ _ Hc) as [->|[(y' & -> & Hx)|(d & g & g' & Hx & _)]]; [congruence| |discriminate].
    destruct (cut_cons_inv _ _ _ Hx) as [->|[(y'' & -> & Hx')|(d & g & g' & Hz & -> & _)]].
    + right. split; [right; eauto|]. intros i' Hi. inversion Hi; subst. eauto.
    + apply cut_nil in Hx'. subst. congruence.
    + inversion Hz; subst. left. eexists. constructor.
Qed.
(** A single word is [true], [false] or no value; a single dash is none. *)
Lemma loose_value y : loose y -> (exists v, value_phrase y v []) \/ no_value y.
Proof.
  intros [[sp ->]|[i ->]].
  - right. intros ts v r Heq Hv. inversion Hv; subst; inversion Heq.
  - destruct (parse_value_cases [TIdent i]) as [(u & v & r & Hu & Hv & _)|[Hn _]].
    + left. exists v. destruct u as [|t [|t' u]]; inversion Hu; subst.
      * inversion Hv.
      * exact Hv.
    + right. intros ts v r Heq Hv. eapply Hn; eauto.
Qed.
Lemma loose_name y : loose y -> exists k, name y k [].
Proof.
  intros H. exists (Kebab (name_text y) (section_count y)).
  destruct H as [[sp ->]|[i ->]]; (split; [|split; [exact I|split; [constructor|reflexivity]]]).
  - eapply name_dash. constructor.
  - eapply name_ident. constructor.
Qed.

(** ** Attributes *)

Inductive attr_part (y : list tt) : Prop :=
| apt_clean a : attr_phrase y a [] -> attr_part y
| apt_value p sp z a a' l help : y = p ++ TPunct "=" sp :: z -> parse_attrs y = PR (Ret (a' :: l)) [] [DExpectedValue help] ->
    attr_phrase p a [] -> other_value a a' -> List.length z <= 1 -> attr_run z l [] -> attr_part y
| apt_block g : y = [TGroup Brace g] -> g = [] \/ (exists sp, g = [TPunct "." sp]) -> attr_part y
| apt_abort r e : parse_attrs y = PR Abort r [DAbortParse e] -> after_colon y -> attr_part y
| apt_panic n r d : parse_attrs y = PR (Panic (PNewRaw n)) r d -> In n (""%string :: reserved_words) ->
    stops_at y n -> attr_part y.

Lemma attrs_panic y w r d : parse_attr y = PR (Panic w) r d -> parse_attrs y = PR (Panic w) r d.
Proof. intros H. rewrite attrs_eq. unfold bind, rollback_err. now rewrite H. Qed.
Lemma attrs_abort y r d : parse_attr y = PR Abort r d -> parse_attrs y = PR Abort r d.
Proof. intros H. rewrite attrs_eq. unfold bind, rollback_err. now rewrite H. Qed.
Lemma attrs_value y a r d l : parse_attr y = PR (Ret a) r d -> parse_attrs r = PR (Ret l) [] [] ->
  parse_attrs y = PR (Ret (a :: l)) [] d.
Proof.
  intros H Hl. rewrite (attrs_first _ _ _ _ H). unfold more_diags, bind. rewrite Hl. cbn. now rewrite app_nil_r.
Qed.
Lemma name_choice k : (exists i, name_ident_ok k i) \/ In (snake_name (k_repr k)) (""%string :: reserved_words).
Proof.
  destruct (existsb (String.eqb (snake_name (k_repr k))) (""%string :: reserved_words)) eqn:He.
  - right. now apply existsb_In.
  - left. apply existsb_In_f in He. eexists. split; [exact He|reflexivity].
Qed.
Lemma snake_panics k ts : In (snake_name (k_repr k)) (""%string :: reserved_words) ->
  snake k ts = PR (Panic (PNewRaw (snake_name (k_repr k)))) ts [].
Proof.
  intros H. unfold snake. destruct (to_snake_ident k) as [i|] eqn:Hi.
  - apply to_snake_iff in Hi. destruct Hi as [Hn _]. contradiction.
  - cbn. unfold ppanic. now rewrite dashes_snake.
Qed.
Lemma wf_part x y : cut x y -> wf x -> wf y.
Proof.
  intros H. induction H as [a b|a d x y b H IH]; intros Hw.
  - now apply wf_app in Hw.
  - rewrite wf_app, wf_cons, wf_group in *. split; [tauto|]. split; [tauto|constructor].
Qed.

Lemma look_brace {A} (f : bool -> P A) g r : bind (look (peek_group Brace)) f (TGroup Brace g :: r) = f true (TGroup Brace g :: r).
Proof. unfold bind, look. cbn. now destruct (f true (TGroup Brace g :: r)). Qed.
(** [{name}]: an attribute, or a panic. *)
Lemma braces_attr y k : wf y -> name y k [] -> attr_part [TGroup Brace y].
Proof.
  intros Hw Hn. destruct (name_choice k) as [(i & Hi)|Hbad].
  - eapply apt_clean. apply at_short. econstructor; eauto.
  - eapply apt_panic; [|exact Hbad|apply (sa_in [] Brace), (sa_name []), Hn]. apply attrs_panic.
    assert (Hk : parse_kebab y = PR (Ret k) [] []).
    { apply parse_kebab_ok; [now apply wf_wf_head|]. exists y. rewrite app_nil_r. auto. }
    rewrite parse_attr_step. cbn [peek_any andb peek_ident].
    assert (Hkv : parse_kv [TGroup Brace y] = PR (Panic (PNewRaw (snake_name (k_repr k)))) [] []).
    { unfold parse_kv. rewrite look_brace. cbn beta iota.
      rewrite (bind_run0 _ _ _ k []).
      - unfold bind at 1, into_block_value, bind at 1. now rewrite (snake_panics k [] Hbad).
      - unfold parse_braced_kebab, delimited. cbn [delim_eqb]. now rewrite Hk. }
    unfold bind at 1, rollback_err. now rewrite Hkv.
Qed.
Lemma opt_value_part ts v f y : opt_value ts v f -> cut ts y -> y <> ts -> y <> [] ->
  (exists v', opt_value y v' []) \/ exists sp y', y = TPunct "=" sp :: y' /\ no_value y' /\ (y' = [] \/ loose y').
Proof.
  intros H Hc Hn Hy. inversion H; subst.
  - apply cut_nil in Hc. congruence.
  - destruct (cut_cons_inv _ _ _ Hc) as [->|[(y' & -> & Hx)|(d & g & g' & Hx & _)]]; [congruence| |discriminate].
    destruct y' as [|t y'].
    { right. exists sp, []. split; auto. split; [|auto]. intros u w r Heq Hv. destruct u; [inversion Hv|discriminate]. }
    destruct (value_part _ _ _ _ H0 Hx) as [(v' & Hv')|[Hl _]]; [congruence|discriminate| |].
    + left. exists (Some v'). now constructor.
    + destruct (loose_value _ Hl) as [(v' & Hv')|Hno].
      * left. exists (Some v'). now constructor.
      * right. eauto 7.
Qed.
Lemma loose_attrs y : wf y -> y = [] \/ loose y ->
  exists l, parse_attrs y = PR (Ret l) [] [] /\ List.length y <= 1 /\ attr_run y l [].
Proof.
  intros Hw [->|Hl].
  - exists []. split; [reflexivity|]. split; [cbn; lia|constructor].
  - destruct (loose_name _ Hl) as (k & Hk). assert (Ha := attr_alone _ _ Hk). eexists. split; [|split].
    + apply parse_attrs_ok; auto. exists y. rewrite app_nil_r. split; [reflexivity|]. apply attrs_one, Ha.
    + destruct Hl as [[? ->]|[? ->]]; cbn; lia.
    + rewrite <- (app_nil_r y). apply ar_cons; [exact Ha|constructor].
Qed.
Lemma wf_tail y t r : wf (y ++ t :: r) -> wf r.
Proof. rewrite wf_app, wf_cons. tauto. Qed.

(** After the first colon of a directive. *)
Lemma dir_abort i sp y e r : parse_directive (TIdent i :: TPunct ":" sp :: y) = PR (Fail e) r [] ->
  parse_attrs (TIdent i :: TPunct ":" sp :: y) = PR Abort r [DAbortParse e].
Proof.
  intros H. apply attrs_abort. rewrite parse_attr_step.
  rewrite (proj2 (dir_test _)) by eauto. unfold bind, unwrap_or_abort. now rewrite H.
Qed.
Lemma dir_panic i sp y w r : parse_directive (TIdent i :: TPunct ":" sp :: y) = PR (Panic w) r [] ->
  parse_attrs (TIdent i :: TPunct ":" sp :: y) = PR (Panic w) r [].
Proof.
  intros H. apply attrs_panic. rewrite parse_attr_step.
  rewrite (proj2 (dir_test _)) by eauto. unfold bind, unwrap_or_abort. now rewrite H.
Qed.
Lemma directive_start i sp y : parse_directive (TIdent i :: TPunct ":" sp :: y) =
  (br <- look (peek_group Brace) ;;
  if br : bool then
    k <- parse_braced_kebab ;;
    v <- into_block_value k ;;
    m <- try_parse_modifier ;;
    ret (Directive i (KKebab k) m (Some v))
  else
    k <- parse_kebab_or_str ;;
    m <- try_parse_modifier ;;
    eq <- rollback_err (parse_punct "=") ;;
    match eq with
    | Some _ => v <- parse_or_emit_err ;; ret (Directive i k m (Some v))
    | None => ret (Directive i k m None)
    end)%parse y.
Proof.
  unfold parse_directive. rewrite (bind_run0 _ _ _ i (TPunct ":" sp :: y)) by reflexivity.
  now rewrite (bind_run0 _ _ _ Datatypes.tt y) by reflexivity.
Qed.
Lemma modifier_end sp : try_parse_modifier [TPunct ":" sp] = PR (Fail (EIdent AtEnd)) [] [].
Proof. reflexivity. Qed.
Lemma key_no_brace ks k f r : key_phrase ks k f -> peek_group Brace (ks ++ r) = false.
Proof.
  intros H. inversion H; subst; [reflexivity|]. destruct (name_start_of _ _ _ H0) as (x & q & -> & Hx).
  destruct Hx as [Hx|[? ->]]; [destruct x; try contradiction|]; reflexivity.
Qed.
Lemma attr_part_ok ts a f y : wf ts -> attr_phrase ts a f -> cut ts y -> y <> ts -> y <> [] -> attr_part y.
Proof.
  intros Hw0 H Hc Hn Hy. assert (Hw := wf_part _ _ Hc Hw0). inversion H; subst.
  - (* key=value *)
    destruct (cut_app_inv _ _ _ Hc) as [[Hc' _]|(y' & -> & Hc')].
    { destruct (name_part _ _ _ _ H0 Hc' Hy) as (k' & Hk'). eapply apt_clean, attr_alone, Hk'. }
    assert (Hcf := cut_more _ _ f Hc').
    assert (Hname : name ts0 k y') by (eapply cut_name; [|exact H0]; exact Hcf).
    destruct y' as [|t y']; [rewrite app_nil_r; eapply apt_clean, attr_alone, Hname|].
    destruct (opt_value_part _ _ _ _ H1 Hc') as [(v' & Hv')|(sp & z & Hz & Hno & Hl)]; [congruence|discriminate| |].
    + eapply apt_clean. apply (at_kv ts0 k (t :: y') v' []); [now rewrite app_nil_r|exact Hv'|].
      intros Hi Hp. apply (H2 Hi). eapply cut_next_punct; [|exact Hp]. rewrite app_nil_r. now apply cut_pre.
    + rewrite Hz in *. destruct (missing_here z Hno) as (help & Hv).
      destruct (loose_attrs z (wf_tail _ _ _ Hw) Hl) as (l & Hl1 & Hl2 & Hl3).
      assert (Hname' : name ts0 k []) by (eapply cut_name; [apply cut_none|exact Hname]).
      eapply apt_value; [reflexivity|eapply attrs_value; [|exact Hl1]; apply attr_eq; [exact Hw|exact Hname'|exact Hv]| | |exact Hl2|exact Hl3].
      * exact (attr_alone _ _ Hname').
      * constructor.
  - (* {key} *)
    inversion H0; subst.
    destruct (cut_cons_inv _ _ _ Hc) as [->|[(y' & -> & Hx)|(d & g & g' & Hx & -> & Hg)]]; [congruence| |].
    { apply cut_nil in Hx. subst. congruence. }
    inversion Hx; subst. destruct g' as [|t g']; [eapply apt_block; eauto|].
    destruct (name_part _ _ _ _ H1 Hg) as (k' & Hk'); [discriminate|].
    eapply braces_attr; eauto. rewrite wf_cons, wf_group in Hw. tauto.
  - (* {..expr} *)
    destruct (cut_cons_inv _ _ _ Hc) as [->|[(y' & -> & Hx)|(d & g & g' & Hx & -> & Hg)]]; [congruence| |].
    { apply cut_nil in Hx. subst. congruence. }
    inversion Hx; subst.
    destruct (cut_cons_inv _ _ _ Hg) as [->|[(y' & -> & Hy')|(? & ? & ? & Hz & _)]]; [eapply apt_block; eauto| |discriminate].
    destruct (cut_cons_inv _ _ _ Hy') as [->|[(y'' & -> & _)|(? & ? & ? & Hz & _)]]; [eapply apt_block; eauto| |discriminate].
    eapply apt_clean, at_spread.
  - (* dir:key:modifier=value *)
    destruct (cut_cons_inv _ _ _ Hc) as [->|[(y1 & -> & Hc1)|(? & ? & ? & Hz & _)]]; [congruence| |discriminate].
    destruct (cut_cons_inv _ _ _ Hc1) as [->|[(y2 & -> & Hc2)|(? & ? & ? & Hz & _)]]; [| |discriminate].
    { destruct (loose_name [TIdent i]) as (k' & Hk'); [right; eauto|]. eapply apt_clean, attr_alone, Hk'. }
    assert (Hw2 : wf y2) by (rewrite !wf_cons in Hw; tauto).
    destruct (cut_app_inv _ _ _ Hc2) as [[Hc3 Hne]|(y3 & -> & Hc3)].
    { (* within the key *)
      destruct y2 as [|t y2].
      - eapply apt_abort; [apply dir_abort; rewrite directive_start; reflexivity|apply (ac_end [TIdent i])].
      - inversion H0; subst.
        + destruct (cut_cons_inv _ _ _ Hc3) as [Hx|[(z & Hx & Hz)|(? & ? & ? & Hz & _)]]; [discriminate| |discriminate].
          apply cut_nil in Hz. congruence.
        + destruct (name_part _ _ _ _ H3 Hc3) as (k' & Hk'); [discriminate|].
          eapply apt_clean. rewrite <- (app_nil_r (t :: y2)). apply (at_dir i sp (t :: y2) (KKebab k') [] None [] None []).
          * now constructor.
          * constructor. intros [].
          * constructor. intros []. }
    assert (Hcf3 := cut_more _ _ f Hc3). rewrite <- app_assoc in Hcf3.
    assert (Hkey : key_phrase ks k y3) by (eapply cut_key; [exact Hcf3|exact H0]).
    destruct (cut_app_inv _ _ _ Hc3) as [[Hc4 Hne]|(y4 & -> & Hc4)].
    { (* within the modifier *)
      inversion H1; subst.
      - apply cut_nil in Hc4. congruence.
      - destruct (cut_cons_inv _ _ _ Hc4) as [->|[(z & -> & Hz)|(? & ? & ? & Hz & _)]]; [| |discriminate].
        + eapply apt_clean. apply (at_dir i sp ks k [] None [] None []).
          * now rewrite app_nil_r.
          * constructor. intros [].
          * constructor. intros [].
        + destruct (cut_cons_inv _ _ _ Hz) as [->|[(z' & -> & Hz')|(? & ? & ? & Hz' & _)]]; [| |discriminate].
          * eapply apt_abort; [apply dir_abort; rewrite directive_start|].
            -- rewrite (bind_run0 _ _ _ (peek_group Brace (ks ++ [TPunct ":" sp0])) _ eq_refl).
               rewrite (key_no_brace _ _ _ _ Hkey).
               rewrite (bind_run0 _ _ _ k [TPunct ":" sp0]).
               ++ unfold bind at 1. rewrite modifier_end. reflexivity.
               ++ apply parse_kebab_or_str_ok; [now apply wf_wf_head|]. eauto.
            -- apply (ac_end (TIdent i :: TPunct ":" sp :: ks)).
          * apply cut_nil in Hz'. subst. congruence. }
    assert (Hcf4 := cut_more _ _ f Hc4).
    assert (Hmod : opt_modifier ms m y4) by (eapply cut_opt_modifier; [exact Hcf4|exact H1]).
    destruct y4 as [|t y4].
    { eapply apt_clean. apply (at_dir i sp ks k ms m [] None []); auto.
      constructor. intros []. }
    destruct (opt_value_part _ _ _ _ H2 Hc4) as [(v' & Hv')|(sp' & z & Hz & Hno & Hl)]; [congruence|discriminate| |].
    + eapply apt_clean. apply (at_dir i sp ks k ms m (t :: y4) v' []); rewrite ?app_nil_r; auto.
    + rewrite Hz in *. destruct (missing_here z Hno) as (help & Hv).
      destruct (loose_attrs z) as (l & Hl1 & Hl2 & Hl3); [rewrite !wf_app, wf_cons in Hw2; tauto|exact Hl|].
      eapply (apt_value _ (TIdent i :: TPunct ":" sp :: ks ++ ms) sp' z); [cbn [app]; now rewrite <- app_assoc|eapply attrs_value; [|exact Hl1]; apply dir_eq; [exact Hw|exact Hkey|exact Hmod|exact Hv]| | |exact Hl2|exact Hl3].
      * rewrite <- (app_nil_r ms). apply (at_dir i sp ks k ms m [] None []).
        -- rewrite !app_nil_r. eapply cut_key; [|exact Hkey]. rewrite <- (app_nil_r ms) at 2. apply cut_pre, cut_none.
        -- cbn [app]. eapply cut_opt_modifier; [apply cut_none|exact Hmod].
        -- constructor. intros [].
      * constructor.
  - (* dir:{key}:modifier *)
    inversion H0; subst.
    destruct (cut_cons_inv _ _ _ Hc) as [->|[(y1 & -> & Hc1)|(? & ? & ? & Hz & _)]]; [congruence| |discriminate].
    destruct (cut_cons_inv _ _ _ Hc1) as [->|[(y2 & -> & Hc2)|(? & ? & ? & Hz & _)]]; [| |discriminate].
    { destruct (loose_name [TIdent i]) as (k' & Hk'); [right; eauto|]. eapply apt_clean, attr_alone, Hk'. }
    assert (Hw2 : wf y2) by (rewrite !wf_cons in Hw; tauto). cbn [app] in Hc2.
    destruct (cut_cons_inv _ _ _ Hc2) as [->|[(y3 & -> & Hc3)|(d & g & g' & Hx & -> & Hg)]].
    + eapply apt_abort; [apply dir_abort; rewrite directive_start; reflexivity|apply (ac_end [TIdent i])].
    + inversion H1; subst.
      * apply cut_nil in Hc3. subst. exfalso. apply Hn. reflexivity.
      * destruct (cut_cons_inv _ _ _ Hc3) as [->|[(z & -> & Hz)|(? & ? & ? & Hz & _)]]; [| |discriminate].
        -- eapply apt_clean. apply (at_dir_short i sp [TGroup Brace inner] k (VBlock [TIdent i0]) [] None []); [exact H0|]. constructor. intros [].
        -- destruct (cut_cons_inv _ _ _ Hz) as [->|[(z' & -> & Hz')|(? & ? & ? & Hz' & _)]]; [| |discriminate].
           ++ eapply apt_abort; [apply dir_abort; rewrite directive_start|].
              ** rewrite look_brace. cbn beta iota.
                 rewrite (bind_run0 _ _ _ k [TPunct ":" sp0]).
                 --- rewrite (bind_run0 _ _ _ (VBlock [TIdent i0]) [TPunct ":" sp0]).
                     +++ unfold bind at 1. rewrite modifier_end. reflexivity.
                     +++ unfold into_block_value. rewrite (bind_run0 _ _ _ i0 [TPunct ":" sp0]); [reflexivity|].
                         apply snake_ok. auto.
                 --- unfold parse_braced_kebab, delimited. cbn [delim_eqb].
                     assert (Hk : parse_kebab inner = PR (Ret k) [] []).
                     { apply parse_kebab_ok; [apply wf_wf_head; rewrite wf_cons, wf_group in Hw2; tauto|].
                       exists inner. rewrite app_nil_r. auto. }
                     now rewrite Hk.
              ** apply (ac_end [TIdent i; TPunct ":" sp; TGroup Brace inner]).
           ++ apply cut_nil in Hz'. subst. exfalso. apply Hn. reflexivity.
    + inversion Hx; subst. destruct g' as [|t g'].
      { eapply apt_abort; [apply dir_abort; rewrite directive_start; reflexivity|apply (ac_braces [TIdent i])]. }
      destruct (name_part _ _ _ _ H2 Hg) as (k' & Hk'); [discriminate|].
      destruct (name_choice k') as [(i' & Hi')|Hbad].
      * eapply apt_clean. apply (at_dir_short i sp [TGroup Brace (t :: g')] k' (VBlock [TIdent i']) [] None []); [econstructor; eauto|].
        constructor. intros [].
      * eapply apt_panic; [|exact Hbad|apply (sa_in [TIdent i; TPunct ":" sp] Brace), (sa_name []), Hk']. apply dir_panic. rewrite directive_start.
        rewrite look_brace. cbn beta iota.
        rewrite (bind_run0 _ _ _ k' []).
        -- unfold bind at 1, into_block_value, bind at 1. now rewrite (snake_panics k' [] Hbad).
        -- unfold parse_braced_kebab, delimited. cbn [delim_eqb].
           assert (Hk : parse_kebab (t :: g') = PR (Ret k') [] []).
           { apply parse_kebab_ok; [apply wf_wf_head; rewrite wf_cons, wf_group in Hw2; tauto|].
             exists (t :: g'). rewrite app_nil_r. auto. }
           now rewrite Hk.
Qed.
