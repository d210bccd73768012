(** Reading code back: which parts of a tree can be found in its code. *)
From Verif Require Import Ast SpecStr SpecGrammar SpecOut SpecEqual.
From Coq Require Import Permutation.
From Verif Require Import ExpandFacts2.
Open Scope list_scope.

(** ** Chains of calls *)

Definition ends_in_call (ts : list tt) : Prop := exists x c, ts = x ++ call_tokens c.

Lemma chain_app l m : chain (l ++ m) = chain l ++ chain m.
Proof. unfold chain. now rewrite map_app, concat_app. Qed.

Lemma call_tokens_end x y c d : x ++ call_tokens c = y ++ call_tokens d -> x = y /\ c = d.
Proof.
  destruct c as [i a], d as [j b]. unfold call_tokens. cbn.
  replace (x ++ [sym "."; TIdent i; parens a]) with (((x ++ [sym "."]) ++ [TIdent i]) ++ [parens a])
    by (now rewrite <- !app_assoc).
  replace (y ++ [sym "."; TIdent j; parens b]) with (((y ++ [sym "."]) ++ [TIdent j]) ++ [parens b])
    by (now rewrite <- !app_assoc).
  intros H. apply app_inj_tail in H as [H1 H2]. apply app_inj_tail in H1 as [H1 H3].
  apply app_inj_tail in H1 as [H1 _]. injection H2 as ->. injection H3 as ->. now split.
Qed.

Lemma chain_split x y l m : ~ ends_in_call x -> ~ ends_in_call y ->
  x ++ chain l = y ++ chain m -> x = y /\ l = m.
Proof.
  intros Hx Hy. revert m. induction l as [|c l IH] using rev_ind; intros m.
  - destruct m as [|d m _] using rev_ind; [cbn; rewrite !app_nil_r; now intros ->|].
    intros H. exfalso. apply Hx. exists (y ++ chain m), d.
    rewrite chain_app in H. cbn in H. rewrite !app_nil_r in H. rewrite H. now rewrite <- app_assoc.
  - destruct m as [|d m _] using rev_ind.
    + intros H. exfalso. apply Hy. exists (x ++ chain l), c.
      rewrite chain_app in H. cbn in H. rewrite !app_nil_r in H. rewrite <- H. now rewrite <- app_assoc.
    + rewrite !chain_app. unfold chain at 2 4. cbn [map List.concat]. rewrite !app_nil_r, !app_assoc.
      intros H. apply call_tokens_end in H as [H ->]. destruct (IH _ H) as [-> ->]. now split.
Qed.

(** What comes before a call is not a dot. *)
Lemma no_call_end x t u : (forall i a, t = TIdent i -> u = parens a -> False) ->
  ~ ends_in_call (x ++ [t; u]).
Proof.
  intros H (y & [i a] & E). unfold call_tokens in E. cbn in E.
  replace (x ++ [t; u]) with ((x ++ [t]) ++ [u]) in E by (now rewrite <- app_assoc).
  replace (y ++ [sym "."; TIdent i; parens a]) with (((y ++ [sym "."]) ++ [TIdent i]) ++ [parens a]) in E
    by (now rewrite <- !app_assoc).
  apply app_inj_tail in E as [E ->]. apply app_inj_tail in E as [_ ->]. now apply (H i a).
Qed.
Lemma no_call_dot x s t u : s <> sym "." -> ~ ends_in_call (x ++ [s; t; u]).
Proof.
  intros H (y & [i a] & E). unfold call_tokens in E. cbn in E.
  replace (x ++ [s; t; u]) with (((x ++ [s]) ++ [t]) ++ [u]) in E by (now rewrite <- !app_assoc).
  replace (y ++ [sym "."; TIdent i; parens a]) with (((y ++ [sym "."]) ++ [TIdent i]) ++ [parens a]) in E
    by (now rewrite <- !app_assoc).
  apply app_inj_tail in E as [E _]. apply app_inj_tail in E as [E _]. apply app_inj_tail in E as [_ E].
  now apply H.
Qed.

(** ** Lists *)

Lemma comma_first x y r s : ~ In (sym ",") x -> ~ In (sym ",") y ->
  x ++ sym "," :: r = y ++ sym "," :: s -> x = y /\ r = s.
Proof.
  revert y. induction x as [|t x IH]; intros [|u y] Hx Hy H; cbn in H.
  - injection H as ->. now split.
  - exfalso. injection H as <- _. apply Hy. now left.
  - exfalso. injection H as -> _. apply Hx. now left.
  - injection H as -> H. apply IH in H as [-> ->]; [now split| |]; intros Hi.
    + apply Hx. now right.
    + apply Hy. now right.
Qed.

Lemma comma_ended_inj l m : Forall (fun x => ~ In (sym ",") x) l -> Forall (fun x => ~ In (sym ",") x) m ->
  comma_ended l = comma_ended m -> l = m.
Proof.
  revert m. induction l as [|x l IH]; intros [|y m] Hl Hm H; [reflexivity| | |].
  - exfalso. unfold comma_ended in H. cbn in H. destruct y; discriminate H.
  - exfalso. unfold comma_ended in H. cbn in H. destruct x; discriminate H.
  - unfold comma_ended in H. cbn in H. rewrite <- !app_assoc in H. cbn in H.
    apply Forall_cons_iff in Hl as [Hx Hl]. apply Forall_cons_iff in Hm as [Hy Hm].
    apply comma_first in H as [-> H]; try assumption. f_equal. now apply IH.
Qed.

Lemma comma_separated_inj l m : l <> [] -> m <> [] ->
  Forall (fun x => ~ In (sym ",") x) l -> Forall (fun x => ~ In (sym ",") x) m ->
  comma_separated l = comma_separated m -> l = m.
Proof.
  assert (A : forall l, l <> [] -> comma_separated l ++ [sym ","] = comma_ended l).
  { induction l0 as [|x [|y l0] IH]; intros H; [now elim H|unfold comma_ended; cbn; now rewrite app_nil_r|].
    change (comma_separated (x :: y :: l0)) with (x ++ sym "," :: comma_separated (y :: l0)).
    rewrite <- app_assoc. cbn [app]. rewrite IH by discriminate.
    change (comma_ended (x :: y :: l0)) with ((x ++ [sym ","]) ++ comma_ended (y :: l0)).
    now rewrite <- app_assoc. }
  intros Hl Hm Fl Fm H. apply comma_ended_inj; try assumption. now rewrite <- !A, H.
Qed.

Lemma forall2_both {A B} (R S : A -> B -> Prop) (Q : A -> A -> Prop) l m c :
  (forall a b x, R a x -> S b x -> Q a b) -> Forall2 R l c -> Forall2 S m c -> Forall2 Q l m.
Proof.
  intros H Hl. revert m. induction Hl as [|a x l c Ha Hl IH]; intros m Hm; inversion Hm; subst;
    constructor; eauto.
Qed.

(** Groups of calls, one after the other. *)
Lemma group_split {A} (g : A -> bool) l m r s :
  Forall (fun c => g c = true) l -> Forall (fun c => g c = true) m ->
  Forall (fun c => g c = false) r -> Forall (fun c => g c = false) s ->
  l ++ r = m ++ s -> l = m /\ r = s.
Proof.
  revert m. induction l as [|c l IH]; intros [|d m] Hl Hm Hr Hs H; cbn in H.
  - now split.
  - exfalso. subst r. inversion Hm; inversion Hr; subst. congruence.
  - exfalso. subst s. inversion Hl; inversion Hs; subst. congruence.
  - injection H as -> H. inversion Hl; inversion Hm; subst. destruct (IH m) as [-> ->]; auto.
Qed.

(** ** Values *)

Lemma value_inj v w ts : value_code v ts -> value_code w ts -> v = w.
Proof.
  intros H K. destruct H; inversion K; subst; try reflexivity; try discriminate.
Qed.
Lemma value_fun v ts us : value_code v ts -> value_code v us -> ts = us.
Proof. intros H K. destruct H; inversion K; subst; reflexivity. Qed.
Lemma value_nonempty v : ~ value_code v [].
Proof. intros H. inversion H. Qed.

Lemma opt_value_inj v w ts : opt_value_code v ts -> opt_value_code w ts -> v = w.
Proof.
  intros H K. destruct H; inversion K; subst; try reflexivity.
  - exfalso. eapply value_nonempty. eassumption.
  - exfalso. eapply value_nonempty. eassumption.
  - f_equal. eapply value_inj; eassumption.
Qed.
Lemma opt_value_fun v ts us : opt_value_code v ts -> opt_value_code v us -> ts = us.
Proof. intros H K. destruct H; inversion K; subst; [reflexivity|]. eapply value_fun; eassumption. Qed.

Lemma or_true_code v ts : value_or_true_code v ts -> value_code (or_true v) ts.
Proof. intros []; [constructor|assumption]. Qed.
Lemma or_true_inj v w ts : value_or_true_code v ts -> value_or_true_code w ts -> or_true v = or_true w.
Proof. intros H K. apply or_true_code in H, K. eapply value_inj; eassumption. Qed.

(** The first token of a value. *)
Lemma value_first v ts : value_code v ts -> exists t r, ts = t :: r /\ (forall c s, t <> TPunct c s).
Proof. intros []; eexists; eexists; (split; [reflexivity|]); intros; discriminate. Qed.
Lemma value_no_comma v ts : value_code v ts -> ~ In (sym ",") ts.
Proof. intros [] H; cbn in H; intuition discriminate. Qed.

(** ** Tags *)

Lemma head_no_call t h : html_head t h -> ~ ends_in_call h.
Proof.
  intros [i|i|i|k]; unfold tachys_html; cbn.
  - apply (no_call_dot [_; _; _; _; _; _; _; _; _; _; _; _; _] (TPunct ":" Alone)). discriminate.
  - apply (no_call_dot [_; _; _; _; _; _; _; _; _; _; _; _; _] (TPunct ":" Alone)). discriminate.
  - apply (no_call_dot [_; _; _; _; _; _; _; _; _; _; _; _; _] (TPunct ":" Alone)). discriminate.
  - apply (no_call_dot [_; _; _; _; _; _; _; _; _; _; _; _; _] (TPunct ":" Alone)). discriminate.
Qed.
Lemma head_inj t u h : html_head t h -> html_head u h -> equal_html_tag t u.
Proof.
  intros H K. destruct H; inversion K; subst; try constructor; try discriminate.
  destruct k as [s m], k0 as [s' n]. cbn in *. subst. constructor.
Qed.
Lemma head_fun t u h : equal_html_tag t u -> html_head t h -> html_head u h.
Proof.
  intros [i|i|i|s m n] H; inversion H; subst; try constructor.
  exact (hh_web (Kebab s n)).
Qed.
Lemma equal_tag_kind t u : equal_html_tag t u -> kind_of t = kind_of u.
Proof. now intros []. Qed.

(** ** Attributes of HTML elements *)

Lemma ident_ok_name a b i : name_ident_ok a i -> name_ident_ok b i -> equal_name a b.
Proof. intros [_ ->] [_ H]. injection H as H. exact H. Qed.
Lemma ident_ok_fun a b i : equal_name a b -> name_ident_ok a i -> name_ident_ok b i.
Proof. unfold equal_name, name_ident_ok. intros H [H1 ->]. rewrite <- H. now split. Qed.
Lemma ident_ok_raw a i : name_ident_ok a i -> i_raw i = true.
Proof. now intros [_ ->]. Qed.

(** A name without underscores is written in one way only. *)
Lemma snake_plain s t : snake_name s = t -> ~ In "_"%char (chars t) -> s = t.
Proof.
  intros <- H. unfold snake_name in *. rewrite chars_unchars in H.
  rewrite <- (unchars_chars s) at 1. f_equal. induction (chars s) as [|c l IH]; [reflexivity|].
  cbn in *. destruct (ascii_dec c "-"); [exfalso; apply H; now left|]. f_equal. apply IH.
  intros Hi. apply H. now right.
Qed.
Lemma no_underscore t : existsb (Ascii.eqb "_") (chars t) = false -> ~ In "_"%char (chars t).
Proof.
  intros H Hi. apply Bool.not_true_iff_false in H. apply H. apply existsb_exists. exists "_"%char.
  split; [exact Hi|reflexivity].
Qed.
Lemma snake_fixed a t : existsb (Ascii.eqb "_") (chars t) = false -> snake_name t = t ->
  snake_name a = snake_name t -> a = t.
Proof. intros H Ht K. rewrite Ht in K. apply snake_plain; [exact K|]. now apply no_underscore. Qed.

Lemma attr_inj k a b c : html_attr_call k a c -> html_attr_call k b c -> equal_html_attr k a b.
Proof.
  intros H K. destruct H as [a v H1 Hv|a v H1 H2 H3 H4 Hv|a v i H1 H2 Hi Hv];
    inversion K as [b' w K1 Kv E1 E2|b' w K1 K2 K3 K4 Kv E1 E2|b' w j K1 K2 Kj Kv E1 E2]; subst b'.
  - subst. split; [eapply value_inj; eassumption|]. left. congruence.
  - exfalso. subst. destruct Kj as [_ Kj]. discriminate Kj.
  - split; [eapply value_inj; eassumption|]. left. congruence.
  - exfalso. subst. destruct Kj as [_ Kj]. discriminate Kj.
  - exfalso. subst. destruct Hi as [_ Hi]. discriminate Hi.
  - exfalso. subst. destruct Hi as [_ Hi]. discriminate Hi.
  - subst. split; [eapply value_inj; eassumption|].
    pose proof (ident_ok_name _ _ _ Hi Kj) as Hn. unfold equal_name in Hn.
    destruct H2 as [H2|[H2|H2]]; [| |destruct K2 as [K2|[K2|K2]]].
    + left. rewrite H2 in *. symmetry. apply snake_fixed; [reflexivity|reflexivity|now symmetry].
    + left. rewrite H2 in *. symmetry. apply snake_fixed; [reflexivity|reflexivity|now symmetry].
    + left. rewrite K2 in *. apply snake_fixed; [reflexivity|reflexivity|assumption].
    + left. rewrite K2 in *. apply snake_fixed; [reflexivity|reflexivity|assumption].
    + right. unfold equal_name. tauto.
Qed.

Lemma attr_same k a b c : equal_html_attr k a b -> html_attr_call k a c -> html_attr_call k b c.
Proof.
  destruct a as [[s m] v], b as [[t n] w]. unfold equal_html_attr. cbn. intros [<- Hk] H.
  destruct Hk as [<-|(H1 & H2 & H3 & H4 & H5)].
  - inversion H as [b' w K1 Kv E1 E2|b' w K1 K2 K3 K4 Kv E1 E2|b' w j K1 K2 Kj Kv E1 E2]; subst; cbn in *.
    + subst. now apply ha_ref.
    + now apply (ha_unchecked k (KvAttr (Kebab s n) v)).
    + apply ha_typed; try assumption.
  - unfold equal_name in H5. cbn in H5.
    inversion H as [b' w K1 Kv E1 E2|b' w K1 K2 K3 K4 Kv E1 E2|b' w j K1 K2 Kj Kv E1 E2]; subst; cbn in *.
    + subst. apply ha_ref; [|exact Kv]. cbn. apply snake_fixed; [reflexivity|reflexivity|now symmetry].
    + exfalso. tauto.
    + apply ha_typed; cbn.
      * intros ->. apply K1. apply snake_fixed; [reflexivity|reflexivity|assumption].
      * tauto.
      * eapply ident_ok_fun; [|exact Kj]. exact H5.
      * exact Kv.
Qed.

(** ** Directives *)

Lemma event_inj k m l n ts : event_code k m ts -> event_code l n ts -> equal_key k l /\ m = n.
Proof.
  intros H K. destruct H; inversion K; subst; try discriminate; split; try reflexivity; constructor;
    eapply ident_ok_name; eassumption.
Qed.
Lemma event_same k m l ts : equal_key k l -> event_code k m ts -> event_code l m ts.
Proof.
  intros [a b Hn] H. inversion H; subst; constructor; eapply ident_ok_fun; eassumption.
Qed.
Lemma event_no_comma k m ts : event_code k m ts -> ~ In (sym ",") ts.
Proof. intros [? ? _|? ? _] H; cbn in H; intuition discriminate. Qed.

Lemma use_inj k v l w ts : use_code k v ts -> use_code l w ts -> equal_key k l /\ v = w.
Proof.
  intros H K. destruct H; inversion K; subst; try discriminate; split; try reflexivity;
    try (constructor; eapply ident_ok_name; eassumption).
  f_equal. eapply value_inj; eassumption.
Qed.
Lemma use_same k l v ts : equal_key k l -> use_code k v ts -> use_code l v ts.
Proof.
  intros [a b Hn] H. inversion H; subst; constructor; try assumption; eapply ident_ok_fun; eassumption.
Qed.

Lemma dir_inj a b c : html_dir_call a c -> html_dir_call b c -> equal_html_dir a b.
Proof.
  intros H K.
  destruct H as [n k v ts Hn Hv|k v ts Hv|k m v ev ts He Hv|k v ts Hu];
    inversion K as [n' l w us Hn' Hw E1 E2|l w us Hw E1 E2|l m' w ev' us He' Hw E1 E2|l w us Hu' E1 E2]; subst;
    try (exfalso; destruct Hn as [Hn|Hn]; subst; discriminate);
    try (exfalso; destruct Hn' as [Hn'|Hn']; subst; discriminate).
  - rewrite (opt_value_inj _ _ _ Hv Hw). apply ehd_text; [|congruence].
    destruct Hn as [-> | ->]; cbn; tauto.
  - rewrite (opt_value_inj _ _ _ Hv Hw). apply ehd_text; [cbn; tauto|congruence].
  - apply comma_first in E2 as [-> ->]; try (eapply event_no_comma; eassumption).
    destruct (event_inj _ _ _ _ _ He He') as [Hk ->]. rewrite (opt_value_inj _ _ _ Hv Hw).
    apply ehd_ident; [now left|exact Hk].
  - destruct (use_inj _ _ _ _ _ Hu Hu') as [Hk ->]. apply ehd_ident; [now right|exact Hk].
Qed.
Lemma dir_same a b c : equal_html_dir a b -> html_dir_call a c -> html_dir_call b c.
Proof.
  intros [n k l v Hn Hk|n k l m v Hn Hk] H.
  - inversion H as [n' l' w us Hn' Hw E1 E2|l' w us Hw E1 E2|l' m' w ev' us He' Hw E1 E2|l' w us Hu' E1 E2]; subst.
    + rewrite Hk. now apply hd_class_style.
    + rewrite Hk. now apply hd_prop.
    + cbn in Hn. intuition discriminate.
    + cbn in Hn. intuition discriminate.
  - inversion H as [n' l' w us Hn' Hw E1 E2|l' w us Hw E1 E2|l' m' w ev' us He' Hw E1 E2|l' w us Hu' E1 E2]; subst.
    + exfalso. intuition (subst; discriminate).
    + intuition discriminate.
    + apply hd_on; [eapply event_same; eassumption|assumption].
    + apply hd_use. eapply use_same; eassumption.
Qed.
