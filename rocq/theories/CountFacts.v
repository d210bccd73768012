(** Counting tokens in views and in their code. *)
From Verif Require Export CodeFacts SpecCount.
From Coq Require Import Permutation Lia.
Open Scope list_scope.

(** ** Names are identifiers *)

Definition startb (c : ascii) : bool :=
  let n := nat_of_ascii c in
  ((65 <=? n) && (n <=? 90) || (97 <=? n) && (n <=? 122) || Ascii.eqb c "_" || (128 <=? n))%nat.
Definition contb (c : ascii) : bool :=
  (startb c || (48 <=? nat_of_ascii c) && (nat_of_ascii c <=? 57))%nat.
Definition lexb (s : string) : bool :=
  match chars s with [] => false | c :: r => startb c && forallb contb r end.
Lemma startb_iff c : startb c = true <-> ident_start c.
Proof.
  unfold startb, ident_start, upper_char, lower_char, code_in.
  rewrite !orb_true_iff, !andb_true_iff, !Nat.leb_le, Ascii.eqb_eq. tauto.
Qed.
Lemma contb_iff c : contb c = true <-> ident_continue c.
Proof.
  unfold contb, ident_continue, digit_char, code_in.
  rewrite orb_true_iff, andb_true_iff, !Nat.leb_le, startb_iff. tauto.
Qed.
Lemma lexb_iff s : lexb s = true <-> lex_ident s.
Proof.
  unfold lexb, lex_ident. destruct (chars s) as [|c r]; [split; [discriminate|tauto]|].
  rewrite andb_true_iff, startb_iff, forallb_forall, Forall_forall.
  split; intros [H1 H2]; split; auto; intros x Hx; apply contb_iff; auto.
Qed.
Lemma chars_app a b : chars (a ++ b) = chars a ++ chars b.
Proof. induction a as [|c a IH]; cbn; [reflexivity|]. now rewrite IH. Qed.

(** The characters that a name may consist of. *)
Definition name_char (c : ascii) : Prop := ident_continue c \/ c = "-"%char.
Lemma wf_text t : wf_tt t -> punct "-" t \/ is_word t -> Forall name_char (chars (token_text t)).
Proof.
  intros Hw [[sp ->]|Ht].
  - constructor; [now right|constructor].
  - destruct t as [i| |[]|]; try contradiction; cbn [token_text wf_tt] in *.
    + destruct Hw as [Hl _]. unfold lex_ident in Hl. destruct (chars (i_name i)) as [|c r]; [contradiction|].
      destruct Hl as [Hc Hr]. constructor; [now left; left|]. eapply Forall_impl; [|exact Hr]. intros x Hx. now left.
    + unfold wf_int in Hw. destruct (chars s) as [|c r]; [contradiction|]. destruct Hw as [Hc Hr].
      constructor; [now left; right|]. eapply Forall_impl; [|exact Hr]. intros x Hx. now left.
Qed.
Lemma run_chars b ts e : run b ts e -> wf ts -> Forall name_char (chars (name_text ts)).
Proof.
  induction 1; intros Hw; [constructor|..]; apply wf_cons in Hw; destruct Hw as [Ht Hw].
  - change (name_text (TPunct "-" sp :: ts)) with (token_text (TPunct "-" sp) ++ name_text ts)%string.
    rewrite chars_app. apply Forall_app. split; auto. apply wf_text; auto. left. now exists sp.
  - change (name_text (TIdent i :: ts)) with (token_text (TIdent i) ++ name_text ts)%string.
    rewrite chars_app. apply Forall_app. split; auto. apply wf_text; auto. right. exact I.
  - change (name_text (TLit LkInt s :: ts)) with (token_text (TLit LkInt s) ++ name_text ts)%string.
    rewrite chars_app. apply Forall_app. split; auto. apply wf_text; auto. right. exact I.
Qed.
Lemma snake_chars s : chars (snake_name s) = map (fun c => if ascii_dec c "-" then "_"%char else c) (chars s).
Proof. unfold snake_name. now rewrite chars_unchars. Qed.
Lemma snake_rest l : Forall name_char l ->
  Forall ident_continue (map (fun c => if ascii_dec c "-" then "_"%char else c) l).
Proof.
  induction 1 as [|c l Hc H IH]; constructor; auto. destruct (ascii_dec c "-") as [->|Hn].
  - left. right. right. now left.
  - destruct Hc as [Hc|Hc]; [exact Hc|contradiction].
Qed.
(** A name read from real tokens, with [_] for [-], is lexically an identifier. *)
Lemma phrase_lex ts : name_phrase ts -> wf ts -> lex_ident (snake_name (name_text ts)).
Proof.
  intros H Hw. unfold lex_ident. rewrite snake_chars. destruct H as [i ts e Hr|sp ts e Hr];
    apply wf_cons in Hw; destruct Hw as [Ht Hw]; apply (run_chars _ _ _ Hr) in Hw.
  - change (name_text (TIdent i :: ts)) with (i_name i ++ name_text ts)%string. rewrite chars_app.
    destruct Ht as [Ht _]. unfold lex_ident in Ht. destruct (chars (i_name i)) as [|c r]; [contradiction|].
    destruct Ht as [Hc Hrest]. cbn [app map]. split.
    + destruct (ascii_dec c "-") as [->|]; auto. right. right. now left.
    + apply snake_rest, Forall_app. split; auto. eapply Forall_impl; [|exact Hrest]. intros x Hx. now left.
  - change (name_text (TPunct "-" sp :: ts)) with (String "-" (name_text ts)). cbn [chars list_ascii_of_string map].
    split; [right; right; now left|]. now apply snake_rest.
Qed.
Definition kebab_ok (k : kebab) : Prop := lex_ident (snake_name (k_repr k)).
Lemma name_lex ts k f : name ts k f -> wf ts -> kebab_ok k.
Proof. intros (Hn & _ & _ & ->) Hw. now apply phrase_lex. Qed.
Lemma ident_ok_wf k i : kebab_ok k -> name_ident_ok k i -> wf_ident i.
Proof.
  intros Hk [Hr ->]. split; [exact Hk|]. intros _ Hin. apply Hr. cbn [i_name] in Hin. now right.
Qed.

(** [UpperCamel] to [upper_camel] keeps identifiers identifiers. *)
Lemma lower_start c d : lower c d -> ident_start c -> ident_start d.
Proof.
  intros [[Hu Hd]|[_ ->]] H; auto. right. left. unfold lower_char, upper_char, code_in in *. lia.
Qed.
Lemma camel_rest_lex l m : camel_snake_rest l m -> Forall ident_continue l -> Forall ident_continue m.
Proof.
  induction 1 as [|c d r s Hu Hl H IH|c r s Hu H IH]; intros Hf; [constructor|..]; inversion Hf; subst; constructor; auto.
  - left. right. right. now left.
  - constructor; auto. left. apply (lower_start c); auto. left. exact Hu.
Qed.
Lemma camel_lex s m : camel_snake s m -> lex_ident s -> lex_ident m.
Proof.
  intros H Hl. inversion H as [|c d r m' Hc Hr]; subst; auto. unfold lex_ident in *. rewrite chars_unchars in *.
  destruct Hl as [H1 H2]. split; [eapply lower_start; eauto|eapply camel_rest_lex; eauto].
Qed.

(** ** Sums *)

Fixpoint total {A} (f : A -> nat) (l : list A) : nat :=
  match l with [] => 0 | x :: r => f x + total f r end.
Lemma total_fold {A} (f : A -> nat) l : fold_right (fun x n => f x + n) 0 l = total f l.
Proof. induction l; cbn; auto. Qed.
Lemma total_app {A} (f : A -> nat) a b : total f (a ++ b) = total f a + total f b.
Proof. induction a as [|x a IH]; cbn; auto. rewrite IH. lia. Qed.
Lemma total_map {A B} (g : A -> B) f l : total f (map g l) = total (fun x => f (g x)) l.
Proof. induction l; cbn; auto. Qed.
Lemma total_ext {A} (f g : A -> nat) l : (forall x, In x l -> f x = g x) -> total f l = total g l.
Proof. induction l as [|x l IH]; intros H; [reflexivity|]. cbn. rewrite H, IH; cbn in *; auto. Qed.
Lemma total_forall2 {A B} (R : A -> B -> Prop) f g l l' : Forall2 R l l' ->
  (forall x y, In x l -> R x y -> g y = f x) -> total g l' = total f l.
Proof. induction 1 as [|x y l l' H1 H IH]; intros Hx; [reflexivity|]. cbn. rewrite (Hx x y), IH; cbn in *; auto. Qed.
Lemma total_zero {A} (f : A -> nat) l : (forall x, In x l -> f x = 0) -> total f l = 0.
Proof. induction l as [|x l IH]; intros H; [reflexivity|]. cbn. rewrite H, IH; cbn in *; auto. Qed.
Lemma total_add {A} (f g : A -> nat) l : total (fun x => f x + g x) l = total f l + total g l.
Proof. induction l; cbn; auto. rewrite IHl. lia. Qed.

(** Grouping by name and adding up counts everything once. *)
Lemma total_if order (j : ident) n : NoDup order -> In j order ->
  total (fun i => if ident_dec j i then n else 0) order = n.
Proof.
  induction 1 as [|i order Hi Hn IH]; intros Hin; [destruct Hin|]. cbn. destruct (ident_dec j i) as [->|Hne].
  - assert (H0 : total (fun i0 => if ident_dec i i0 then n else 0) order = 0); [|lia].
    apply total_zero. intros x Hx. destruct (ident_dec i x) as [->|]; [contradiction|reflexivity].
  - destruct Hin as [->|Hin]; [contradiction|]. now apply IH.
Qed.
Lemma total_grouped (f : list tt -> nat) order slots : NoDup order ->
  (forall i, In i (map fst slots) -> In i order) ->
  total (fun i => total f (slots_named slots i)) order = total (fun p => f (snd p)) slots.
Proof.
  intros Hn. induction slots as [|[j c] slots IH]; intros Hin.
  - apply total_zero. reflexivity.
  - cbn [total snd].
    rewrite <- IH by (intros i Hi; apply Hin; now right).
    rewrite <- (total_if order j (f c) Hn) at 1 by (apply Hin; now left).
    rewrite <- total_add. apply total_ext. intros i _. unfold slots_named. cbn [filter fst].
    destruct (ident_dec j i); cbn; reflexivity.
Qed.

Section Count.
Variable P : tt -> bool.
Hypothesis P_ident : forall i, wf_ident i -> P (TIdent i) = false.
Hypothesis P_punct : forall c sp, P (TPunct c sp) = false.
Hypothesis P_group : forall d ts, P (TGroup d ts) = false.
Hypothesis P_str : forall s, P (TLit LkStr s) = false.
Hypothesis P_int : forall s, P (TLit LkInt s) = false.
Hypothesis P_neg : forall s, P (TLit LkFloat ("-" ++ s)) = P (TLit LkFloat s).

Notation W := (occurrences P).
Notation w := (weight P).

Lemma W_nil : W [] = 0. Proof. reflexivity. Qed.
Lemma W_cons t ts : W (t :: ts) = w t + W ts. Proof. reflexivity. Qed.
Lemma W_app a b : W (a ++ b) = W a + W b.
Proof. induction a; cbn; auto. rewrite <- Nat.add_assoc. f_equal. exact IHa. Qed.
Lemma W_concat l : W (List.concat l) = total W l.
Proof. induction l; cbn [List.concat total]; auto. rewrite W_app, IHl. reflexivity. Qed.
Lemma w_punct c sp : w (TPunct c sp) = 0. Proof. cbn. now rewrite P_punct. Qed.
Lemma w_sym c : w (sym c) = 0. Proof. apply w_punct. Qed.
Lemma w_ident i : wf_ident i -> w (TIdent i) = 0. Proof. intros H. cbn. now rewrite P_ident. Qed.
Lemma w_plain s : lexb s = true -> w (TIdent (Id false s)) = 0.
Proof. intros H. apply w_ident. split; [now apply lexb_iff|discriminate]. Qed.
Lemma w_word s : lexb s = true -> w (word s) = 0. Proof. apply w_plain. Qed.
Lemma w_group d ts : w (TGroup d ts) = W ts. Proof. cbn. now rewrite P_group. Qed.
Lemma w_parens ts : w (parens ts) = W ts. Proof. apply w_group. Qed.
Lemma w_braces ts : w (braces ts) = W ts. Proof. apply w_group. Qed.
Lemma w_brackets ts : w (brackets ts) = W ts. Proof. apply w_group. Qed.
Lemma w_str s : w (str s) = 0. Proof. cbn. now rewrite P_str. Qed.
Lemma w_lit_str s : w (TLit LkStr s) = 0. Proof. apply w_str. Qed.
Lemma w_int s : w (TLit LkInt s) = 0. Proof. cbn. now rewrite P_int. Qed.
Lemma W_dcolon : W dcolon = 0. Proof. unfold dcolon. now rewrite !W_cons, !w_punct. Qed.
Lemma W_bars : W bars = 0. Proof. unfold bars. now rewrite !W_cons, !w_punct. Qed.
Lemma W_path l : forallb lexb l = true -> W (abs_path l) = 0.
Proof.
  induction l as [|s l IH]; cbn [forallb abs_path]; intros H; [reflexivity|]. apply andb_true_iff in H.
  rewrite W_app, W_dcolon, W_cons, w_word, IH; tauto.
Qed.
Lemma W_tachys l : forallb lexb l = true -> W (tachys_html l) = 0.
Proof. intros H. apply W_path. cbn [forallb]. now rewrite H. Qed.

Ltac weigh :=
  repeat first [rewrite W_app | rewrite W_cons | rewrite W_nil | rewrite w_sym | rewrite w_punct | rewrite w_str
    | rewrite w_lit_str | rewrite w_int | rewrite w_parens | rewrite w_braces | rewrite w_brackets | rewrite w_group
    | rewrite W_dcolon | rewrite W_bars
    | rewrite w_word by reflexivity | rewrite w_plain by reflexivity
    | rewrite W_path by reflexivity | rewrite W_tachys by reflexivity
    | rewrite w_ident by assumption ].

(** ** The weight of the user's code in a tree *)

Definition value_weight (v : value) : nat :=
  match v with
  | VLit (LitTok k s) => w (TLit k s)
  | VLit (LitBool _) => 0
  | VBlock ts => W ts
  | VBracket _ ts => W ts
  end.
Definition opt_weight (v : option value) : nat := match v with Some v => value_weight v | None => 0 end.
Definition attr_weight (a : attr) : nat :=
  match a with
  | AKv a => value_weight (kv_value a)
  | ADir d => opt_weight (d_value d)
  | ASpread ts => W ts
  end.
Definition args_weight (o : option (list tt)) : nat := match o with Some a => W a | None => 0 end.
Fixpoint tree_weight (e : element) : nat :=
  match e with
  | Element t sels attrs args ch =>
      W (tag_generics t) + total attr_weight attrs + args_weight args +
      match ch with
      | Some l => fold_right (fun c n =>
          match c with CValue v => value_weight v | CElement e => tree_weight e | CSlot e => tree_weight e end + n) 0 l
      | None => 0
      end
  end.
Definition child_weight (c : child) : nat :=
  match c with CValue v => value_weight v | CElement e => tree_weight e | CSlot e => tree_weight e end.
Lemma tree_weight_eq t sels attrs args ch : tree_weight (Element t sels attrs args ch) =
  W (tag_generics t) + total attr_weight attrs + args_weight args + total child_weight (child_list ch).
Proof. destruct ch; cbn [tree_weight child_list]; auto. now rewrite <- (total_fold child_weight). Qed.

(** The names of a tree are identifiers. *)
Definition attr_ok (a : attr) : Prop :=
  match a with
  | AKv a => kebab_ok (kv_key a)
  | ADir d => match d_key d with KKebab k => kebab_ok k | KStr _ => True end
  | ASpread _ => True
  end.
Definition tag_ok (t : tag) : Prop :=
  match t with
  | TagHtml i | TagSvg i | TagMath i => wf_ident i
  | TagComponent p => Forall (fun s => wf_ident (seg_ident s)) (segs p)
  | TagWeb _ => True
  end.
Inductive tree_ok : element -> Prop :=
| tree_ok_intro t sels attrs args ch :
    tag_ok t -> Forall attr_ok attrs ->
    (forall e, In (CElement e) (child_list ch) -> tree_ok e) ->
    (forall e, In (CSlot e) (child_list ch) -> tree_ok e) ->
    tree_ok (Element t sels attrs args ch).
Definition children_ok (l : list child) : Prop :=
  (forall e, In (CElement e) l -> tree_ok e) /\ (forall e, In (CSlot e) l -> tree_ok e).

(** ** What the user wrote *)

Lemma W_run b ts e : run b ts e -> wf ts -> W ts = 0.
Proof.
  induction 1; intros Hw; auto; apply wf_cons in Hw; destruct Hw as [Ht Hw]; cbn [wf_tt] in Ht; weigh; auto.
Qed.
Lemma W_name_phrase ts : name_phrase ts -> wf ts -> W ts = 0.
Proof.
  intros [i r e H|sp r e H] Hw; apply wf_cons in Hw; destruct Hw as [Ht Hw]; cbn [wf_tt] in Ht; weigh;
    eapply W_run; eauto.
Qed.
Lemma W_name ts k f : name ts k f -> wf ts -> W ts = 0.
Proof. intros (H & _). now apply W_name_phrase. Qed.
Lemma wf_plain s : lexb s = true -> wf_ident (Id false s).
Proof. intros H. split; [now apply lexb_iff|discriminate]. Qed.
Lemma wf1 t : wf [t] -> wf_tt t. Proof. intros H. now apply wf_cons in H. Qed.
Lemma W_value ts v f : value_phrase ts v f -> wf ts -> W ts = value_weight v.
Proof.
  intros [k s ?|sp k s ? Hk|?|?|x ?|x ?|i x ?] Hw; cbn [value_weight]; weigh; auto.
  - destruct Hk as [-> | ->]; weigh; cbn [weight]; rewrite ?P_int, ?P_neg; lia.
  - apply wf_cons in Hw. destruct Hw as [Hi _]. cbn [wf_tt] in Hi. weigh. lia.
Qed.
Lemma W_opt_value ts v f : opt_value ts v f -> wf ts -> W ts = opt_weight v.
Proof.
  intros [|sp x u ? H] Hw; auto. apply wf_cons in Hw. cbn [opt_weight]. weigh. eapply W_value; [exact H|tauto].
Qed.
Lemma W_shorthand ts k v : shorthand ts k v -> wf ts -> W ts = value_weight v /\ kebab_ok k.
Proof.
  intros [inner k' i Hn Hi] Hw. apply wf1 in Hw. apply wf_group in Hw. assert (Hk := name_lex _ _ _ Hn Hw).
  assert (Hwi := ident_ok_wf _ _ Hk Hi). split; auto. cbn [value_weight]. weigh. rewrite (W_name _ _ _ Hn Hw). lia.
Qed.
Lemma W_key ts k f : key_phrase ts k f -> wf ts -> W ts = 0 /\ match k with KKebab k => kebab_ok k | KStr _ => True end.
Proof.
  intros [s ?|x k' ? Hn] Hw; [weigh; auto|]. split; [eapply W_name; eauto|eapply name_lex; eauto].
Qed.
Lemma W_modifier ts m f : opt_modifier ts m f -> wf ts -> W ts = 0.
Proof.
  intros [|sp i ?] Hw; auto. apply wf_cons in Hw. destruct Hw as [_ Hw]. apply wf1 in Hw. cbn [wf_tt] in Hw. now weigh.
Qed.
Lemma W_attr ts a f : attr_phrase ts a f -> wf ts -> W ts = attr_weight a /\ attr_ok a.
Proof.
  intros [ts1 k ts2 v ? Hn Hv Hc|x k v ? Hs|sp x ?|i sp ks k ms m vs v ? Hk Hm Hv|i sp ks k v ms m ? Hs Hm] Hw; cbn [attr_weight attr_ok kv_key kv_value d_value d_key].
  - apply wf_app in Hw. destruct Hw as [Hw1 Hw2]. split; [|eapply name_lex; eauto]. weigh.
    rewrite (W_name _ _ _ Hn Hw1), (W_opt_value _ _ _ Hv Hw2). now destruct v.
  - now apply W_shorthand.
  - split; auto. weigh. lia.
  - apply wf_cons in Hw. destruct Hw as [Hi Hw]. apply wf_cons in Hw. destruct Hw as [_ Hw]. cbn [wf_tt] in Hi.
    apply wf_app in Hw. destruct Hw as [Hw1 Hw]. apply wf_app in Hw. destruct Hw as [Hw2 Hw3].
    destruct (W_key _ _ _ Hk Hw1) as [H1 H2]. split; auto. weigh.
    rewrite H1, (W_modifier _ _ _ Hm Hw2), (W_opt_value _ _ _ Hv Hw3). lia.
  - apply wf_cons in Hw. destruct Hw as [Hi Hw]. apply wf_cons in Hw. destruct Hw as [_ Hw]. cbn [wf_tt] in Hi.
    apply wf_app in Hw. destruct Hw as [Hw1 Hw2]. destruct (W_shorthand _ _ _ Hs Hw1) as [H1 H2]. split; auto.
    weigh. rewrite H1, (W_modifier _ _ _ Hm Hw2). cbn [opt_weight]. lia.
Qed.
Lemma W_attrs ts l f : attrs_phrase ts l f -> wf ts -> W ts = total attr_weight l /\ Forall attr_ok l.
Proof.
  induction 1 as [|x a y l f Ha H IH]; intros Hw; [split; [reflexivity|constructor]|].
  apply wf_app in Hw. destruct Hw as [Hw1 Hw2]. destruct (W_attr _ _ _ Ha Hw1), (IH Hw2). split; [|now constructor].
  weigh. cbn [total]. lia.
Qed.
Lemma W_selectors ts l f : selectors_phrase ts l f -> wf ts -> W ts = 0.
Proof.
  induction 1 as [|x a y l f Ha H IH]; intros Hw; auto.
  apply wf_app in Hw. destruct Hw as [Hw1 Hw2]. weigh. rewrite (IH Hw2).
  destruct Ha as [sp z k ? Hn|sp z k ? Hn]; apply wf_cons in Hw1; destruct Hw1 as [_ Hw1]; weigh; rewrite (W_name _ _ _ Hn Hw1); lia.
Qed.
Lemma W_segment E ts s f : segment_phrase E ts s f -> wf ts -> W ts = W (seg_generics s) /\ wf_ident (seg_ident s).
Proof.
  intros H Hw; inversion H; subst; cbn [seg_generics seg_args seg_ident];
    apply wf_cons in Hw; destruct Hw as [Hi Hw]; cbn [wf_tt] in Hi; (split; [|exact Hi]); weigh; lia.
Qed.
Lemma W_segments E ts l f : segments_phrase E ts l f -> wf ts ->
  W ts = W (List.concat (map seg_generics l)) /\ Forall (fun s => wf_ident (seg_ident s)) l.
Proof.
  induction 1 as [x s f Hs Hf|x s sp y l f Hs H IH]; intros Hw.
  - destruct (W_segment _ _ _ _ Hs Hw). cbn. rewrite app_nil_r. auto.
  - apply wf_app in Hw. destruct Hw as [Hw1 Hw2]. apply wf_cons in Hw2. destruct Hw2 as [_ Hw2]. apply wf_cons in Hw2. destruct Hw2 as [_ Hw2].
    destruct (W_segment _ _ _ _ Hs Hw1), (IH Hw2). split; [|now constructor]. cbn [map List.concat]. weigh. lia.
Qed.
Lemma W_tag E ts t f : tag_phrase E ts t f -> wf ts -> W ts = W (tag_generics t) /\ tag_ok t.
Proof.
  intros H Hw. inversion H as [? p ? Hpf Hp|? k i ? Hpf Hn Hk Hi|? k i ? Hpf Hn Hk Hi|? k i ? Hpf Hn Hk Hi|? k i ? Hpf Hn Hk Hi|? k ? Hpf Hn Hk]; subst; cbn [tag_ok tag_generics].
  - inversion Hp as [? l ? Hs|sp x l ? Hs]; subst; cbn [segs].
    + now apply (W_segments E _ _ f).
    + apply wf_cons in Hw. destruct Hw as [_ Hw]. apply wf_cons in Hw. destruct Hw as [_ Hw]. weigh. now apply (W_segments E _ _ f).
  - rewrite (W_name _ _ _ Hn Hw). cbn. split; [reflexivity|]. repeat constructor; [|discriminate].
    cbn [seg_ident i_name]. destruct Hi as [_ ->]. exact (name_lex _ _ _ Hn Hw).
  - split; [exact (W_name _ _ _ Hn Hw)|]. eapply ident_ok_wf; [eapply name_lex; eauto|exact Hi].
  - split; [exact (W_name _ _ _ Hn Hw)|]. eapply ident_ok_wf; [eapply name_lex; eauto|exact Hi].
  - split; [exact (W_name _ _ _ Hn Hw)|]. eapply ident_ok_wf; [eapply name_lex; eauto|exact Hi].
  - split; [exact (W_name _ _ _ Hn Hw)|exact I].
Qed.
Lemma W_children E ts cs : children_phrase E ts cs -> wf ts ->
  (forall e, In (CElement e) cs \/ In (CSlot e) cs -> forall ts f, element_phrase E ts e f -> wf ts -> W ts = tree_weight e /\ tree_ok e) ->
  W ts = total child_weight cs /\ children_ok cs.
Proof.
  intros H. induction H as [|ts c ts' cs Hc H IH] using children_phrase_ind; intros Hw Hin.
  - split; [reflexivity|]. split; intros e [].
  - apply wf_app in Hw. destruct Hw as [Hw1 Hw2].
    destruct IH as [H1 [H2 H3]]; auto. { intros e He. apply Hin. cbn. tauto. }
    assert (Hone : W ts = child_weight c /\ (forall e, c = CElement e \/ c = CSlot e -> tree_ok e)).
    { inversion Hc as [? v ? Hv Hs|? e ? He Hi Hs Hv|sp x e ? Hs He]; subst; cbn [child_weight].
      - split; [eapply W_value; eauto|]. intros e [He|He]; discriminate.
      - destruct (Hin e (or_introl (or_introl eq_refl)) _ _ He Hw1). split; auto. intros e' [He'|He']; inversion He'; subst; auto.
      - apply wf_cons in Hw1. destruct Hw1 as [_ Hw1]. apply wf_cons in Hw1. destruct Hw1 as [_ Hw1].
        destruct (Hin e (or_intror (or_introl eq_refl)) _ _ He Hw1). split; [weigh; auto|]. intros e' [He'|He']; inversion He'; subst; auto. }
    destruct Hone as [Ho1 Ho2]. split; [rewrite W_app; cbn [total]; lia|].
    split; intros e [He|He]; auto.
Qed.
Lemma W_element E e : forall ts f, element_phrase E ts e f -> wf ts -> W ts = tree_weight e /\ tree_ok e.
Proof.
  induction e as [t sels attrs args ch IHe IHs] using element_children_ind. intros ts f H Hw.
  inversion H as [ts1 t' ts2 sels' ts3 attrs' ts4 args' cs' follow H1 H2 H3 H4]; subst.
  apply wf_app in Hw. destruct Hw as [Hw1 Hw]. apply wf_app in Hw. destruct Hw as [Hw2 Hw]. apply wf_app in Hw. destruct Hw as [Hw3 Hw4].
  destruct (W_tag _ _ _ _ H1 Hw1) as [Ht1 Ht2]. destruct (W_attrs _ _ _ H3 Hw3) as [Ha1 Ha2].
  rewrite tree_weight_eq. weigh. rewrite Ht1, (W_selectors _ _ _ H2 Hw2), Ha1.
  assert (Hend : W ts4 = args_weight args + total child_weight (child_list ch) /\ children_ok (child_list ch)).
  { assert (Hb : forall b cs, ch = Some cs -> block (children_phrase E) b cs -> wf b -> W b = total child_weight cs /\ children_ok cs).
    { intros b cs -> Hb Hwb. inversion Hb; subst; apply wf1 in Hwb; apply wf_group in Hwb; weigh; rewrite Nat.add_0_r; cbn [child_list] in *;
        (eapply W_children; [eassumption|exact Hwb|]; intros e [He|He]; [exact (IHe e He)|exact (IHs e He)]). }
    inversion H4 as [sp|b cs Hbl|sp a sp' b cs Hp Hbl]; subst; cbn [args_weight child_list].
    - split; [weigh; reflexivity|]. split; intros e [].
    - now apply Hb.
    - apply wf_cons in Hw4. destruct Hw4 as [_ Hw4]. apply wf_app in Hw4. destruct Hw4 as [Hwa Hw4].
      apply wf_cons in Hw4. destruct Hw4 as [_ Hw4]. destruct (Hb _ _ eq_refl Hbl Hw4) as [Hb1 Hb2]. split; auto. weigh. lia. }
  destruct Hend as [He1 [He2 He3]]. rewrite He1. split; [lia|]. now constructor.
Qed.
Lemma W_view E ts cs : children_phrase E ts cs -> wf ts -> W ts = total child_weight cs /\ children_ok cs.
Proof. intros H Hw. eapply W_children; eauto. intros e _. apply W_element. Qed.

(** ** What the macro writes *)

Definition fine_call (c : call) : Prop := wf_ident (call_name c).
Definition call_weight (c : call) : nat := W (call_args c).
Lemma W_chain l : Forall fine_call l -> W (chain l) = total call_weight l.
Proof.
  induction 1 as [|c l Hc H IH]; [reflexivity|]. change (chain (c :: l)) with (call_tokens c ++ chain l).
  rewrite W_app, IH. unfold call_tokens, fine_call in *. weigh. cbn [total]. unfold call_weight. lia.
Qed.
Lemma fine_plain s args : lexb s = true -> fine_call (plain_call s args).
Proof. intros H. now apply wf_plain. Qed.
Lemma fine_map {A} (f : A -> call) l : (forall x, fine_call (f x)) -> Forall fine_call (map f l).
Proof. intros H. induction l; cbn; constructor; auto. Qed.

Lemma W_value_code v ts : value_code v ts -> W ts = value_weight v.
Proof. intros []; cbn [value_weight]; weigh; auto; lia. Qed.
Lemma W_opt_code v ts : opt_value_code v ts -> W ts = opt_weight v.
Proof. intros [|u x H]; auto. now apply W_value_code. Qed.
Lemma W_or_true_code v ts : value_or_true_code v ts -> W ts = opt_weight v.
Proof. intros [|u x H]; [weigh; auto|]. now apply W_value_code. Qed.
Lemma W_html_attr k a c : html_attr_call k a c -> kebab_ok (kv_key a) ->
  fine_call c /\ call_weight c = value_weight (kv_value a).
Proof.
  intros [b v Hk Hv|b v H1 H2 H3 H4 Hv|b v i H1 H2 Hi Hv] Hok; unfold call_weight; cbn [call_args plain_call];
    rewrite <- (W_value_code _ _ Hv).
  - split; [now apply fine_plain|reflexivity].
  - split; [now apply fine_plain|]. weigh. lia.
  - split; [|reflexivity]. exact (ident_ok_wf _ _ Hok Hi).
Qed.
Definition key_ok (k : kebab_or_str) : Prop := match k with KKebab k => kebab_ok k | KStr _ => True end.
Lemma W_event k m ts : event_code k m ts -> key_ok k -> W ts = 0.
Proof.
  intros [k' i Hi|k' i Hi] Hok; assert (Hw := ident_ok_wf _ _ Hok Hi); weigh; auto.
Qed.
Lemma W_use k v ts : use_code k v ts -> key_ok k -> W ts = opt_weight v.
Proof.
  intros [k' i Hi|k' i u x Hi Hv] Hok; assert (Hw := ident_ok_wf _ _ Hok Hi); cbn [opt_weight]; weigh; auto.
  rewrite (W_value_code _ _ Hv). lia.
Qed.
Lemma W_html_dir d c : html_dir_call d c -> key_ok (d_key d) ->
  fine_call c /\ call_weight c = opt_weight (d_value d).
Proof.
  intros [n k v x Hn Hv|k v x Hv|k m v ev x He Hv|k v x Hu] Hok; unfold call_weight; cbn [call_args plain_call d_value d_key] in *.
  - split; [apply fine_plain; destruct Hn as [-> | ->]; reflexivity|]. weigh. rewrite (W_opt_code _ _ Hv). lia.
  - split; [now apply fine_plain|]. weigh. now rewrite (W_opt_code _ _ Hv).
  - split; [now apply fine_plain|]. weigh. now rewrite (W_event _ _ _ He Hok), (W_opt_code _ _ Hv).
  - split; [now apply fine_plain|]. now apply W_use with (k := k).
Qed.
Lemma W_name_block k : w (name_block k) = 0.
Proof.
  unfold name_block. weigh. rewrite W_concat.
  replace (total W (repeat [word "let"; word "__x"; sym "="; parens []; sym ";"] (k_spans k))) with 0; auto.
  symmetry. apply total_zero. intros x Hx. apply repeat_spec in Hx. subst. now weigh.
Qed.
Lemma W_classes l : Forall fine_call (map class_call l) /\ total call_weight (map class_call l) = 0.
Proof.
  split; [apply fine_map; intros; now apply fine_plain|]. rewrite total_map. apply total_zero. intros k _.
  unfold call_weight, class_call. cbn [call_args plain_call]. weigh. now rewrite W_name_block.
Qed.
Lemma W_ids l : Forall fine_call (map id_call l) /\ total call_weight (map id_call l) = 0.
Proof.
  split; [apply fine_map; intros; now apply fine_plain|]. rewrite total_map. apply total_zero. intros k _.
  unfold call_weight, id_call. cbn [call_args plain_call]. weigh. now rewrite W_name_block.
Qed.

(** The parts of an attribute list, added up. *)
Lemma attrs_split l : total attr_weight l =
  total (fun a => value_weight (kv_value a)) (kvs_of l) + total (fun d => opt_weight (d_value d)) (dirs_of l) +
  total W (spreads_of l).
Proof. induction l as [|[a|d|s] l IH]; cbn [total kvs_of dirs_of spreads_of attr_weight]; lia. Qed.
Lemma attrs_split_component l : total attr_weight l =
  total (fun a => value_weight (kv_value a)) (kvs_of l) + total attr_weight (entries_of l) +
  total (fun d => opt_weight (d_value d)) (clones_of l).
Proof.
  induction l as [|[a|d|s] l IH]; cbn [total kvs_of entries_of attr_weight]; auto; unfold clones_of in *; cbn [dirs_of filter].
  - lia.
  - destruct (is_clone d); cbn [total attr_weight]; lia.
  - lia.
Qed.
Lemma entries_of_in a l : In a (entries_of l) -> In a l.
Proof.
  induction l as [|[b|d|s] l IH]; cbn; auto. destruct (is_clone d); cbn; tauto. tauto.
Qed.
Lemma clones_of_in d l : In d (clones_of l) -> In (ADir d) l.
Proof. intros H. apply filter_In in H. apply dirs_of_in. tauto. Qed.
Lemma calls_weigh {A} (R : A -> call -> Prop) f l cs : Forall2 R l cs ->
  (forall a c, In a l -> R a c -> fine_call c /\ call_weight c = f a) ->
  Forall fine_call cs /\ total call_weight cs = total f l.
Proof.
  intros H. induction H as [|a c l cs Hac H IH]; intros Hx; [split; auto|].
  destruct IH as [H1 H2]; [intros; apply Hx; auto; now right|]. destruct (Hx a c) as [H3 H4]; cbn; auto.
Qed.
Lemma forall_in {A} (P0 : A -> Prop) l x : Forall P0 l -> In x l -> P0 x.
Proof. rewrite Forall_forall. auto. Qed.

Lemma W_html_head t head : html_head t head -> tag_ok t -> W head = 0.
Proof. intros [i|i|i|k] Ht; cbn [tag_ok] in Ht; weigh; auto. Qed.
Lemma generics_html t : not_component t -> W (tag_generics t) = 0.
Proof. intros H. destruct t as [i|p|i|i|k]; try reflexivity. now destruct (H p). Qed.

Lemma W_child_calls codes : Forall fine_call (map child_call codes) /\ total call_weight (map child_call codes) = total W codes.
Proof. split; [apply fine_map; intros; now apply fine_plain|]. now rewrite total_map. Qed.
Lemma W_spread_calls l : Forall fine_call (map spread_call l) /\ total call_weight (map spread_call l) = total W l.
Proof. split; [apply fine_map; intros; now apply fine_plain|]. now rewrite total_map. Qed.

(** The code of an HTML element. *)
Lemma W_html t sels attrs args ch out : not_component t -> tag_ok t -> Forall attr_ok attrs ->
  element_code (Element t sels attrs args ch) out ->
  exists codes, Forall2 node_code (non_slots (child_list ch)) codes /\
    W out = total attr_weight attrs + total W codes.
Proof.
  intros Hn Ht Ha H. apply html_code in H; auto. destruct H as (head & kvs & dirs & codes & Hh & Hk & Hd & Hc & ->).
  exists codes. split; auto. rewrite W_app, (W_html_head _ _ Hh Ht).
  apply calls_weigh with (f := fun a => value_weight (kv_value a)) in Hk.
  2: { intros a c Hin. intros Hx. apply (W_html_attr (kind_of t)); auto. apply kvs_of_in in Hin. exact (forall_in _ _ _ Ha Hin). }
  apply calls_weigh with (f := fun d => opt_weight (d_value d)) in Hd.
  2: { intros d c Hin Hx. apply W_html_dir; auto. apply dirs_of_in in Hin. exact (forall_in _ _ _ Ha Hin). }
  destruct Hk as [Hk1 Hk2], Hd as [Hd1 Hd2], (W_classes (classes_of sels)) as [Hc1 Hc2], (W_ids (ids_of sels)) as [Hi1 Hi2],
    (W_spread_calls (spreads_of attrs)) as [Hs1 Hs2], (W_child_calls codes) as [Hx1 Hx2].
  rewrite W_chain.
  - rewrite !total_app, attrs_split. lia.
  - rewrite !Forall_app. tauto.
Qed.

(** Components. *)
Lemma W_path_code p ts : path_code p ts -> Forall (fun s => wf_ident (seg_ident s)) (segs p) ->
  W ts = W (tag_generics (TagComponent p)).
Proof.
  assert (Hseg : forall s ts, seg_code s ts -> wf_ident (seg_ident s) -> W ts = W (seg_generics s)).
  { intros s x [i|i b g] Hw; cbn [seg_ident] in Hw; unfold seg_generics; cbn [seg_args]; weigh; auto. }
  assert (Hsegs : forall l ts, segs_code l ts -> Forall (fun s => wf_ident (seg_ident s)) l ->
    W ts = W (List.concat (map seg_generics l))).
  { induction 1 as [|s x Hs|s x s' l y Hs H IH]; intros Hf; auto; inversion Hf; subst.
    - cbn [map List.concat]. weigh. rewrite (Hseg _ _ Hs); auto.
    - cbn [map List.concat] in *. weigh. rewrite (Hseg _ _ Hs), IH; auto. weigh. lia. }
  intros [l x H|l x H] Hf; cbn [tag_generics segs] in *; weigh; rewrite ?Nat.add_0_l; auto.
Qed.
Lemma W_prop a c : prop_call a c -> kebab_ok (kv_key a) -> fine_call c /\ call_weight c = value_weight (kv_value a).
Proof.
  intros [b i v Hi Hv] Hok. split; [exact (ident_ok_wf _ _ Hok Hi)|]. unfold call_weight. cbn. now apply W_value_code.
Qed.
Lemma W_clone d ts : clone_code d ts -> key_ok (d_key d) -> W ts = 0 /\ opt_weight (d_value d) = 0.
Proof. intros [k i Hi] Hok. assert (Hw := ident_ok_wf _ _ Hok Hi). split; [|reflexivity]. now weigh. Qed.
Lemma wf_raw s : lexb s = true -> ~ List.In s reserved_words -> wf_ident (Id true s).
Proof. intros H Hn. split; [now apply lexb_iff|]. intros _. exact Hn. Qed.
Lemma raw_class_style n : n = "class" \/ n = "style" -> wf_ident (Id true n).
Proof. intros [-> | ->]; apply wf_raw; auto; cbn; intuition discriminate. Qed.
Lemma W_entry a ts : entry_code a ts -> attr_ok a -> W ts = attr_weight a.
Proof.
  intros [x|n k m v x Hn Hv|n c m v x Hn Hv|k m v x Hc Hv|k i m v x H1 H2 H3 Hi Hv|k i m v x Hi Hv|k m v ev x He Hv|k v x Hu] Hok;
    cbn [attr_weight attr_ok d_key d_value] in *; auto.
  - assert (Hl : forallb lexb [n; n] = true) by (destruct Hn as [-> | ->]; reflexivity).
    weigh. rewrite (W_tachys _ Hl), (W_or_true_code _ _ Hv). lia.
  - assert (Hl : forallb lexb [n] = true) by (destruct Hn as [-> | ->]; reflexivity).
    assert (Hw := raw_class_style n Hn). weigh. rewrite (W_tachys _ Hl), (W_or_true_code _ _ Hv). lia.
  - weigh. rewrite (W_or_true_code _ _ Hv). lia.
  - assert (Hw := ident_ok_wf _ _ Hok Hi). weigh. rewrite (W_or_true_code _ _ Hv). lia.
  - assert (Hw := ident_ok_wf _ _ Hok Hi). weigh. rewrite (W_or_true_code _ _ Hv). lia.
  - weigh. rewrite (W_event _ _ _ He Hok), (W_opt_code _ _ Hv). lia.
  - weigh. rewrite (W_use _ _ _ Hu Hok). lia.
Qed.
Lemma W_comma_ended l : W (comma_ended l) = total W l.
Proof. unfold comma_ended. rewrite W_concat, total_map. apply total_ext. intros x _. weigh. lia. Qed.
Lemma W_comma_separated l : W (comma_separated l) = total W l.
Proof.
  induction l as [|x [|y l] IH]; auto; [cbn [comma_separated total]; lia|].
  change (comma_separated (x :: y :: l)) with (x ++ sym "," :: comma_separated (y :: l)). weigh. rewrite IH. reflexivity.
Qed.
Lemma W_fragment codes : W (fragment codes) = total W codes.
Proof. unfold fragment. weigh. rewrite W_comma_ended. lia. Qed.
Lemma W_rendered ts : W (rendered ts) = W ts.
Proof. unfold rendered. weigh. lia. Qed.
Definition used_args (args : option (list tt)) (codes : list (list tt)) : nat :=
  match codes with [] => 0 | _ => args_weight args end.
Lemma W_children_calls args clones codes : total W clones = 0 ->
  Forall fine_call (children_calls args clones codes) /\
  total call_weight (children_calls args clones codes) = used_args args codes + total W codes.
Proof.
  intros H0. unfold children_calls, used_args. destruct codes as [|c codes]; [split; auto|].
  split; [constructor; auto; now apply fine_plain|]. cbn [total]. unfold call_weight at 1. cbn [call_args plain_call].
  weigh. rewrite W_concat, H0. change (W c + total W codes) with (total W (c :: codes)). destruct args as [a|]; cbn [args_weight].
  - weigh. rewrite W_fragment. lia.
  - weigh. rewrite W_fragment. lia.
Qed.
Lemma W_slot_arg codes : W (slot_arg codes) = total W codes.
Proof.
  unfold slot_arg. destruct codes as [|c [|c' codes]].
  - weigh. reflexivity.
  - cbn [total]. lia.
  - weigh. rewrite W_comma_separated. lia.
Qed.
Lemma W_slot_calls slots calls : slot_calls slots calls -> (forall i c, In (i, c) slots -> lex_ident (i_name i)) ->
  Forall fine_call calls /\ total call_weight calls = total (fun p => W (snd p)) slots.
Proof.
  intros [order cs Hn Hin H] Hl. rewrite <- (total_grouped W order slots Hn) by (intros i; apply Hin).
  apply (calls_weigh _ _ _ _ H). intros i c Hi Hx. inversion Hx as [j m Hm Hr]; subst. split.
  - split; [|intros _ Hres; apply Hr; now right]. cbn [call_name i_name].
    apply (camel_lex _ _ Hm). apply Hin in Hi. apply in_map_iff in Hi. destruct Hi as ([j' c'] & Hj & Hi). cbn in Hj. subst j'. eauto.
  - unfold call_weight. cbn [call_args]. apply W_slot_arg.
Qed.
Lemma W_selector_entries l : total W (selector_entries l) = 0.
Proof.
  unfold selector_entries. rewrite total_app, total_map.
  rewrite (total_zero (fun x => W (class_entry x))); [|intros k _; unfold class_entry; now weigh].
  unfold id_entries. destruct (ids_of l) as [|k ks]; [reflexivity|].
  assert (Hw : wf_ident (Id true "id")) by (apply wf_raw; auto; cbn; intuition discriminate).
  cbn [total]. now weigh.
Qed.
Lemma W_build : Forall fine_call [plain_call "build" []] /\ total call_weight [plain_call "build" []] = 0.
Proof. split; auto. constructor; auto. now apply fine_plain. Qed.
Lemma W_component_frame path calls entries : Forall fine_call calls ->
  W (component_frame path calls entries) = 2 * W path + total call_weight calls + total W entries.
Proof.
  intros Hf. destruct W_build as [Hb1 Hb2]. unfold component_frame. weigh. rewrite !W_chain.
  - rewrite total_app, Hb2. cbn [total]. unfold call_weight at 2. cbn [call_args plain_call]. weigh.
    rewrite W_comma_ended. lia.
  - constructor; auto. now apply fine_plain.
  - apply Forall_app. auto.
Qed.
Lemma W_slot_frame path calls : Forall fine_call calls -> W (slot_frame path calls) = W path + total call_weight calls.
Proof.
  intros Hf. destruct W_build as [Hb1 Hb2]. unfold slot_frame. weigh. rewrite W_chain.
  - rewrite total_app, Hb2. lia.
  - apply Forall_app. auto.
Qed.
Lemma slot_idents l slots : slots_code l slots -> (forall e, In (CSlot e) l -> tree_ok e) ->
  forall i c, In (i, c) slots -> lex_ident (i_name i).
Proof.
  revert slots. induction l as [|c l IH]; intros slots H Hok i x Hin; inversion H; subst; try destruct Hin.
  - eapply IH; eauto. intros e He. apply Hok. now right.
  - eapply IH; eauto. intros e' He. apply Hok. now right.
  - inversion H0; subst. assert (Ho : tree_ok e) by (apply Hok; now left).
    inversion Ho as [t ? ? ? ? Ht]; subst. cbn [el_tag] in *. subst. cbn [tag_ok segs] in Ht. inversion Ht as [|? ? Hi]; subst. apply Hi.
  - eapply IH; eauto. intros e' He. apply Hok. now right.
Qed.
Lemma W_props attrs props : Forall2 prop_call (kvs_of attrs) props -> Forall attr_ok attrs ->
  Forall fine_call props /\ total call_weight props = total (fun a => value_weight (kv_value a)) (kvs_of attrs).
Proof.
  intros H Ha. apply (calls_weigh _ _ _ _ H). intros a c Hin Hx. apply W_prop; auto. apply kvs_of_in in Hin. exact (forall_in _ _ _ Ha Hin).
Qed.
Lemma W_clones attrs clones : Forall2 clone_code (clones_of attrs) clones -> Forall attr_ok attrs ->
  total W clones = 0 /\ total (fun d => opt_weight (d_value d)) (clones_of attrs) = 0.
Proof.
  intros H Ha. assert (Hk : forall d, In d (clones_of attrs) -> key_ok (d_key d)).
  { intros d Hin. apply clones_of_in in Hin. exact (forall_in _ _ _ Ha Hin). }
  induction H as [|d c l cs Hc H IH]; [auto|].
  destruct (W_clone _ _ Hc (Hk _ (or_introl eq_refl))) as [H1 H2]. destruct IH as [H3 H4]; [intros; apply Hk; now right|].
  cbn [total]. lia.
Qed.
Lemma W_component p sels attrs args ch out : tag_ok (TagComponent p) -> Forall attr_ok attrs ->
  (forall e, In (CSlot e) (child_list ch) -> tree_ok e) ->
  element_code (Element (TagComponent p) sels attrs args ch) out ->
  exists codes slots, Forall2 node_code (non_slots (child_list ch)) codes /\ slots_code (child_list ch) slots /\
    W out = 2 * W (tag_generics (TagComponent p)) + total attr_weight attrs + used_args args codes + total W codes +
            total (fun q => W (snd q)) slots.
Proof.
  intros Ht Ha Hs H. apply component_code in H.
  destruct H as (path & props & entries & clones & codes & slots & scalls & Hp & H1 & H2 & H3 & H4 & H5 & H6 & ->).
  exists codes, slots. split; auto. split; auto.
  destruct (W_props _ _ H1 Ha) as [Hp1 Hp2]. destruct (W_clones _ _ H3 Ha) as [Hc1 Hc2].
  destruct (W_children_calls args clones codes Hc1) as [Hk1 Hk2].
  destruct (W_slot_calls _ _ H6 (slot_idents _ _ H5 Hs)) as [Hs1 Hs2].
  rewrite W_component_frame by (rewrite !Forall_app; auto).
  rewrite (W_path_code _ _ Hp Ht), !total_app, W_selector_entries, attrs_split_component, Hp2, Hk2, Hs2, Hc2.
  replace (total W entries) with (total attr_weight (entries_of attrs)); [lia|]. symmetry.
  apply (total_forall2 _ _ _ _ _ H2). intros a x Hin Hx. apply W_entry; auto.
  apply entries_of_in in Hin. exact (forall_in _ _ _ Ha Hin).
Qed.
Lemma W_slot t sels attrs args ch out : tag_ok t -> Forall attr_ok attrs ->
  slot_code (Element t sels attrs args ch) out ->
  exists codes, Forall2 node_code (non_slots (child_list ch)) codes /\
    W out = W (tag_generics t) + total attr_weight attrs + used_args args codes + total W codes.
Proof.
  intros Ht Ha H. apply slot_code_inv in H.
  destruct H as (p & path & props & clones & codes & -> & -> & He & Hp & H1 & H3 & H4 & ->).
  exists codes. split; auto.
  destruct (W_props _ _ H1 Ha) as [Hp1 Hp2]. destruct (W_clones _ _ H3 Ha) as [Hc1 Hc2].
  destruct (W_children_calls args clones codes Hc1) as [Hk1 Hk2].
  rewrite W_slot_frame by (rewrite !Forall_app; auto).
  rewrite (W_path_code _ _ Hp Ht), !total_app, attrs_split_component, Hp2, Hk2, Hc2, He. cbn [total]. lia.
Qed.

(** ** Input against output *)

Lemma total_le {A} (f g : A -> nat) l : (forall x, In x l -> f x <= g x) -> total f l <= total g l.
Proof.
  induction l as [|x l IH]; intros H; [auto|]. cbn [total]. assert (Hx := H x (or_introl eq_refl)).
  assert (total f l <= total g l); [apply IH; intros; apply H; now right|lia].
Qed.
Lemma total_rel {A B} (R : A -> B -> Prop) (f : A -> nat) (g : B -> nat) (Q : nat -> nat -> Prop) l l' :
  Q 0 0 -> (forall a b c d, Q a b -> Q c d -> Q (a + c) (b + d)) ->
  Forall2 R l l' -> (forall x y, In x l -> R x y -> Q (g y) (f x)) -> Q (total g l') (total f l).
Proof.
  intros H0 Hp H. induction H as [|x y l l' Hxy H IH]; intros Hx; cbn [total]; auto.
  apply Hp; [apply Hx; cbn; auto|]. apply IH. intros; apply Hx; cbn; auto.
Qed.
(** The slots of a list of children. *)
Fixpoint slot_children (l : list child) : list element :=
  match l with [] => [] | CSlot e :: r => e :: slot_children r | _ :: r => slot_children r end.
Lemma children_split l : total child_weight l = total child_weight (non_slots l) + total tree_weight (slot_children l).
Proof. induction l as [|[v|e|e] l IH]; cbn [total non_slots slot_children child_weight]; lia. Qed.
Lemma slots_in_in e l : In e (slot_children l) -> In (CSlot e) l.
Proof. induction l as [|[v|x|x] l IH]; cbn; auto. intros [-> |H]; auto. Qed.
Lemma slot_codes_each l slots : slots_code l slots -> Forall2 (fun e p => slot_code e (snd p)) (slot_children l) slots.
Proof. revert slots. induction l as [|c l IH]; intros slots H; inversion H; subst; cbn [slot_children]; auto. Qed.
Lemma non_slots_in_element e l : In (CElement e) (non_slots l) -> In (CElement e) l.
Proof. induction l as [|[v|x|x] l IH]; cbn; auto; intros [H|H]; auto. Qed.
Lemma nodes_rel (Q : nat -> nat -> Prop) l codes : Q 0 0 -> (forall n, Q n n) ->
  (forall a b c d, Q a b -> Q c d -> Q (a + c) (b + d)) ->
  Forall2 node_code (non_slots l) codes ->
  (forall e code, In (CElement e) l -> element_code e code -> Q (W code) (tree_weight e)) ->
  Q (total W codes) (total child_weight (non_slots l)).
Proof.
  intros H0 Hr Hp H He. apply (total_rel node_code child_weight W Q _ _ H0 Hp H). intros c x Hin Hx.
  destruct Hx as [v ts Hv|e ts Hx]; rewrite W_rendered; cbn [child_weight].
  - rewrite (W_value_code _ _ Hv). apply Hr.
  - apply He; auto. now apply non_slots_in_element.
Qed.
Lemma slots_rel (Q : nat -> nat -> Prop) l slots : Q 0 0 ->
  (forall a b c d, Q a b -> Q c d -> Q (a + c) (b + d)) ->
  slots_code l slots ->
  (forall e code, In (CSlot e) l -> slot_code e code -> Q (W code) (tree_weight e)) ->
  Q (total (fun p => W (snd p)) slots) (total tree_weight (slot_children l)).
Proof.
  intros H0 Hp H He. apply slot_codes_each in H. apply (total_rel _ tree_weight _ Q _ _ H0 Hp H).
  intros e p Hin Hx. apply He; auto. now apply slots_in_in.
Qed.
Lemma used_args_le args codes : used_args args codes <= args_weight args.
Proof. unfold used_args. destruct codes; lia. Qed.

(** Nothing is used more than twice. *)
Lemma out_le e : tree_ok e ->
  (forall code, element_code e code -> W code <= 2 * tree_weight e) /\
  (forall code, slot_code e code -> W code <= 2 * tree_weight e).
Proof.
  induction e as [t sels attrs args ch IHe IHs] using element_children_ind. intros Hok. inversion Hok as [? ? ? ? ? Ht Ha Hce Hcs]; subst.
  assert (Hnodes : forall codes, Forall2 node_code (non_slots (child_list ch)) codes ->
    total W codes <= 2 * total child_weight (non_slots (child_list ch))).
  { intros codes Hc. apply (nodes_rel (fun a b => a <= 2 * b) (child_list ch)); auto; try (intros; lia).
    intros e code Hin Hx. exact (proj1 (IHe e Hin (Hce e Hin)) code Hx). }
  rewrite tree_weight_eq, children_split. split; intros code H.
  - destruct t as [i|p|i|i|k].
    2: { destruct (W_component _ _ _ _ _ _ Ht Ha Hcs H) as (codes & slots & Hc & Hs & ->).
         specialize (Hnodes _ Hc). assert (Hu := used_args_le args codes).
         assert (Hsl : total (fun q => W (snd q)) slots <= 2 * total tree_weight (slot_children (child_list ch))).
         { apply (slots_rel (fun a b => a <= 2 * b) (child_list ch)); auto; try (intros; lia). intros e c Hin Hx. exact (proj2 (IHs e Hin (Hcs e Hin)) c Hx). }
         lia. }
    all: apply W_html in H; auto; [|intros p Hx; discriminate Hx]; destruct H as (codes & Hc & ->);
      specialize (Hnodes _ Hc); lia.
  - destruct (W_slot _ _ _ _ _ _ Ht Ha H) as (codes & Hc & ->). specialize (Hnodes _ Hc). assert (Hu := used_args_le args codes). lia.
Qed.

(** Everything is used exactly once where nothing is dropped. *)
Definition once (slot : bool) (e : element) : Prop :=
  slots_used slot e /\ args_used e /\ W (tag_generics (el_tag e)) = 0.
Inductive once_below : bool -> element -> Prop :=
| once_intro b e : once b e ->
    (forall e', In (CElement e') (child_list (el_children e)) -> once_below false e') ->
    (forall e', In (CSlot e') (child_list (el_children e)) -> once_below true e') ->
    once_below b e.
Lemma slots_none l : (forall e, ~ In (CSlot e) l) -> slot_children l = [].
Proof. intros H. induction l as [|[v|e|e] l IH]; cbn [slot_children]; auto; try (apply IH; intros x Hx; apply (H x); now right). destruct (H e). now left. Qed.
Lemma used_args_eq t sels attrs args ch codes : args_used (Element t sels attrs args ch) ->
  Forall2 node_code (non_slots (child_list ch)) codes -> used_args args codes = args_weight args.
Proof.
  intros Hu Hc. unfold used_args. destruct codes; auto. destruct args as [a|]; auto.
  destruct Hu as [_ Hu]; [discriminate|]. cbn [el_children] in Hu. inversion Hc as [Hn|]. now rewrite <- Hn in Hu.
Qed.
Lemma out_eq e : tree_ok e ->
  (once_below false e -> forall code, element_code e code -> W code = tree_weight e) /\
  (once_below true e -> forall code, slot_code e code -> W code = tree_weight e).
Proof.
  induction e as [t sels attrs args ch IHe IHs] using element_children_ind. intros Hok. inversion Hok as [? ? ? ? ? Ht Ha Hce Hcs]; subst.
  assert (Hnodes : (forall e', In (CElement e') (child_list ch) -> once_below false e') ->
    forall codes, Forall2 node_code (non_slots (child_list ch)) codes ->
    total W codes = total child_weight (non_slots (child_list ch))).
  { intros Ho codes Hc. apply (nodes_rel eq (child_list ch)); auto.
    intros e code Hin Hx. exact (proj1 (IHe e Hin (Hce e Hin)) (Ho e Hin) code Hx). }
  rewrite tree_weight_eq, children_split. split; intros Ho code H; inversion Ho as [? ? (Hsl & Har & Hg) Hoe Hos]; subst;
    cbn [el_children el_tag] in *; specialize (Hnodes Hoe).
  - destruct t as [i|p|i|i|k].
    2: { destruct (W_component _ _ _ _ _ _ Ht Ha Hcs H) as (codes & slots & Hc & Hs & ->).
         rewrite (Hnodes _ Hc), Hg, (used_args_eq _ _ _ _ _ _ Har Hc).
         replace (total (fun q => W (snd q)) slots) with (total tree_weight (slot_children (child_list ch))); [lia|]. symmetry.
         apply (slots_rel eq (child_list ch)); auto. intros e c Hin Hx. exact (proj2 (IHs e Hin (Hcs e Hin)) (Hos e Hin) c Hx). }
    all: apply W_html in H; auto; [|intros p Hx; discriminate Hx]; destruct H as (codes & Hc & ->);
      rewrite (Hnodes _ Hc), Hg; unfold slots_used in Hsl; cbn [el_tag el_children] in Hsl;
      rewrite (slots_none (child_list ch)) by (apply Hsl; right; discriminate);
      destruct args as [a|]; [|cbn [args_weight total]; lia];
      destruct Har as [[p Hp] _]; [discriminate|]; discriminate Hp.
  - destruct (W_slot _ _ _ _ _ _ Ht Ha H) as (codes & Hc & ->). rewrite (Hnodes _ Hc), Hg, (used_args_eq _ _ _ _ _ _ Har Hc).
    rewrite (slots_none (child_list ch)); [cbn [total]; lia|]. unfold slots_used in Hsl. apply Hsl. now left.
Qed.
Lemma anywhere_once cs : (forall b e, anywhere cs b e -> once b e) ->
  forall e b, anywhere cs b e -> once_below b e.
Proof.
  intros H e. induction e as [t sels attrs args ch IHe IHs] using element_children_ind. intros b Ha.
  constructor; [now apply H| |]; cbn [el_children]; intros e' Hin.
  - apply IHe; auto. eapply any_child; eauto.
  - apply IHs; auto. eapply any_slot; eauto.
Qed.

Lemma W_root code : W (root_frame code) = W code.
Proof. unfold root_frame. weigh. lia. Qed.
Lemma non_slots_all l : (forall e, ~ In (CSlot e) l) -> non_slots l = l.
Proof. intros H. induction l as [|[v|e|e] l IH]; cbn; auto; try (f_equal; apply IH; intros x Hx; apply (H x); now right). destruct (H e). now left. Qed.
Lemma root_weigh (Q : nat -> nat -> Prop) cs out : Q 0 0 -> (forall n, Q n n) ->
  (forall a b c d, Q a b -> Q c d -> Q (a + c) (b + d)) ->
  (forall e code, In (CElement e) cs -> element_code e code -> Q (W code) (tree_weight e)) ->
  root_code cs out -> Q (W out) (total child_weight cs).
Proof.
  intros H0 Hr Hp He H. inversion H as [c code Hs Hn|cs' codes Hl Hs Hn]; subst; rewrite W_root.
  - apply nodes_each in Hn. apply (nodes_rel Q [c] [code] H0 Hr Hp) in Hn; auto.
    rewrite non_slots_all in Hn; [cbn [total] in Hn |- *; rewrite !Nat.add_0_r in *; exact Hn|].
    intros e [Hx|[]]. now apply (Hs e).
  - apply nodes_each in Hn. apply (nodes_rel Q cs codes H0 Hr Hp) in Hn; auto.
    rewrite non_slots_all in Hn by exact Hs. now rewrite W_fragment.
Qed.

Lemma view_le E input cs out : wf input -> children_phrase E input cs -> root_code cs out -> W out <= 2 * W input.
Proof.
  intros Hw Hc H. destruct (W_view E input cs Hc Hw) as [-> [Hce _]].
  apply (root_weigh (fun a b => a <= 2 * b) cs out); auto; try (intros; lia).
  intros e code Hin Hx. exact (proj1 (out_le e (Hce e Hin)) code Hx).
Qed.
Lemma view_eq E input cs out : wf input -> children_phrase E input cs -> root_code cs out ->
  (forall b e, anywhere cs b e -> once b e) -> W out = W input.
Proof.
  intros Hw Hc H Ho. destruct (W_view E input cs Hc Hw) as [-> [Hce _]].
  apply (root_weigh eq cs out); auto.
  intros e code Hin Hx. exact (proj1 (out_eq e (Hce e Hin)) (anywhere_once cs Ho e false (any_root cs e Hin)) code Hx).
Qed.
End Count.
