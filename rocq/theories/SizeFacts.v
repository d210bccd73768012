(** How many tokens a view has and how many its expansion has. *)
From Verif Require Export CountFacts.
From Coq Require Import Lia Arith.
Open Scope list_scope.

Definition every (t : tt) : bool := true.
Notation T := (occurrences every).
Notation one_token := (weight every).

Lemma T_nil : T [] = 0. Proof. reflexivity. Qed.
Lemma T_cons t ts : T (t :: ts) = one_token t + T ts. Proof. reflexivity. Qed.
Lemma T_app a b : T (a ++ b) = T a + T b.
Proof. induction a; cbn; auto. rewrite <- Nat.add_assoc. f_equal. exact IHa. Qed.
Lemma T_concat l : T (List.concat l) = total T l.
Proof. induction l; cbn [List.concat total]; auto. rewrite T_app, IHl. reflexivity. Qed.
Lemma t_ident i : one_token (TIdent i) = 1. Proof. reflexivity. Qed.
Lemma t_punct c sp : one_token (TPunct c sp) = 1. Proof. reflexivity. Qed.
Lemma t_lit k s : one_token (TLit k s) = 1. Proof. reflexivity. Qed.
Lemma t_group d ts : one_token (TGroup d ts) = S (T ts). Proof. reflexivity. Qed.
Lemma t_sym c : one_token (sym c) = 1. Proof. reflexivity. Qed.
Lemma t_word s : one_token (word s) = 1. Proof. reflexivity. Qed.
Lemma t_str s : one_token (str s) = 1. Proof. reflexivity. Qed.
Lemma t_parens ts : one_token (parens ts) = S (T ts). Proof. reflexivity. Qed.
Lemma t_braces ts : one_token (braces ts) = S (T ts). Proof. reflexivity. Qed.
Lemma t_brackets ts : one_token (brackets ts) = S (T ts). Proof. reflexivity. Qed.
Lemma T_dcolon : T dcolon = 2. Proof. reflexivity. Qed.
Lemma T_bars : T bars = 2. Proof. reflexivity. Qed.
Lemma T_path l : T (abs_path l) = 3 * List.length l.
Proof. induction l as [|s l IH]; auto. cbn [abs_path List.length]. rewrite T_app, T_cons, T_dcolon, t_word, IH. lia. Qed.
Lemma T_tachys l : T (tachys_html l) = 9 + 3 * List.length l.
Proof. unfold tachys_html. rewrite T_path. cbn [List.length]. lia. Qed.
Lemma t_pos t : 1 <= one_token t.
Proof. destruct t; cbn; lia. Qed.

Ltac weigh :=
  repeat first [rewrite T_app | rewrite T_cons | rewrite T_nil | rewrite t_sym | rewrite t_punct | rewrite t_str
    | rewrite t_lit | rewrite t_parens | rewrite t_braces | rewrite t_brackets | rewrite t_group
    | rewrite T_dcolon | rewrite T_bars | rewrite t_word | rewrite t_ident
    | rewrite T_path | rewrite T_tachys ]; cbn [List.length].

(** ** A lower bound of the size of what a tree is read from *)

Definition value_size (v : value) : nat :=
  match v with
  | VLit _ => 1
  | VBlock ts => S (T ts)
  | VBracket None ts => S (T ts)
  | VBracket (Some _) ts => S (S (T ts))
  end.
Definition opt_size (v : option value) : nat := match v with Some v => value_size v | None => 0 end.
Definition attr_size (a : attr) : nat :=
  match a with
  | AKv a => value_size (kv_value a)
  | ADir d => 2 + opt_size (d_value d)
  | ASpread ts => 3 + T ts
  end.
Definition sel_size (s : selector) : nat :=
  match s with SelClass k | SelId k => S (k_spans k) end.
Definition seg_size (s : path_seg) : nat := S (T (seg_generics s)).
Definition path_size (p : path) : nat :=
  (if leading p then 2 else 0) + total seg_size (segs p) + 2 * (List.length (segs p) - 1).
Definition seg_full (s : path_seg) : Prop := match seg_args s with PAngle _ g => 1 <= T g | _ => True end.
Definition tag_full (t : tag) : Prop :=
  match t with TagComponent p => 1 <= List.length (segs p) /\ Forall seg_full (segs p) | _ => True end.
Definition tag_size (t : tag) : nat :=
  match t with TagComponent p => path_size p | _ => 1 end.
Definition args_size (o : option (list tt)) : nat := match o with Some a => T a | None => 0 end.
Fixpoint tree_size (e : element) : nat :=
  match e with
  | Element t sels attrs args ch =>
      S (tag_size t) + total sel_size sels + total attr_size attrs + args_size args +
      match ch with
      | Some l => fold_right (fun c n =>
          match c with CValue v => value_size v | CElement e => tree_size e | CSlot e => 2 + tree_size e end + n) 0 l
      | None => 0
      end
  end.
Definition child_size (c : child) : nat :=
  match c with CValue v => value_size v | CElement e => tree_size e | CSlot e => 2 + tree_size e end.
Lemma tree_size_eq t sels attrs args ch : tree_size (Element t sels attrs args ch) =
  S (tag_size t) + total sel_size sels + total attr_size attrs + args_size args + total child_size (child_list ch).
Proof. destruct ch; cbn [tree_size child_list]; auto. now rewrite <- (total_fold child_size). Qed.

Lemma value_pos v : 1 <= value_size v. Proof. destruct v as [|ts|[i|] ts]; cbn; lia. Qed.

Lemma T_words ts : word_count ts <= T ts.
Proof.
  induction ts as [|t ts IH]; auto. rewrite T_cons. unfold word_count in *. cbn [filter].
  assert (H := t_pos t). destruct t; cbn [List.length]; lia.
Qed.
Lemma T_name ts k f : name ts k f -> 1 <= k_spans k <= T ts.
Proof.
  intros (H & _ & _ & ->). cbn [k_spans]. destruct ts as [|t ts]; [inversion H|].
  cbn [section_count]. rewrite T_cons. assert (Ht := t_pos t). assert (Hw := T_words ts). lia.
Qed.
Lemma T_value ts v f : value_phrase ts v f -> value_size v <= T ts.
Proof. intros [k s ?|sp k s ? Hk|?|?|x ?|x ?|i x ?]; cbn [value_size]; weigh; lia. Qed.
Lemma T_opt_value ts v f : opt_value ts v f -> opt_size v <= T ts.
Proof. intros [|sp x u ? H]; cbn [opt_size]; [lia|]. apply T_value in H. weigh. lia. Qed.
Lemma T_shorthand ts k v : shorthand ts k v -> value_size v <= T ts.
Proof. intros [inner k' i Hn Hi]. apply T_name in Hn. cbn [value_size]. weigh. lia. Qed.
Lemma T_attr ts a f : attr_phrase ts a f -> attr_size a <= T ts.
Proof.
  intros [ts1 k ts2 v ? Hn Hv Hc|x k v ? Hs|sp x ?|i sp ks k ms m vs v ? Hk Hm Hv|i sp ks k v ms m ? Hs Hm];
    cbn [attr_size kv_value d_value]; weigh.
  - apply T_name in Hn. apply T_opt_value in Hv. destruct v; cbn [opt_size value_size] in *; lia.
  - now apply T_shorthand in Hs.
  - lia.
  - apply T_opt_value in Hv. assert (1 <= T ks); [|lia].
    destruct Hk as [s ?|x k' ? Hn]; [reflexivity|]. apply T_name in Hn. lia.
  - apply T_shorthand in Hs. cbn [opt_size]. lia.
Qed.
Lemma T_attrs ts l f : attrs_phrase ts l f -> total attr_size l <= T ts.
Proof. induction 1 as [|x a y l f Ha H IH]; cbn [total]; [lia|]. apply T_attr in Ha. weigh. lia. Qed.
Lemma T_selectors ts l f : selectors_phrase ts l f -> total sel_size l <= T ts.
Proof.
  induction 1 as [|x a y l f Ha H IH]; cbn [total]; [lia|]. weigh.
  destruct Ha as [sp z k ? Hn|sp z k ? Hn]; apply T_name in Hn; cbn [sel_size]; weigh; lia.
Qed.
Lemma T_segment E ts s f : segment_phrase E ts s f -> seg_size s <= T ts /\ seg_full s.
Proof.
  assert (Hg : forall g, next_punct "<" g -> 1 <= T g).
  { intros [|t g] []. subst. rewrite T_cons, t_punct. lia. }
  intros H; inversion H; subst; unfold seg_size, seg_full, seg_generics; cbn [seg_args]; (split; [weigh; lia|auto]).
Qed.
Lemma T_segments E ts l f : segments_phrase E ts l f -> total seg_size l + 2 * (List.length l - 1) <= T ts /\ 1 <= List.length l /\ Forall seg_full l.
Proof.
  induction 1 as [x s f Hs Hf|x s sp y l f Hs H IH]; apply T_segment in Hs; destruct Hs as [Hs1 Hs2]; cbn [total List.length].
  - split; [lia|]. split; [lia|]. auto.
  - destruct IH as (H1 & H2 & H3). split; [weigh; lia|]. split; [lia|]. auto.
Qed.
Lemma T_tag E ts t f : tag_phrase E ts t f -> tag_size t <= T ts /\ tag_full t.
Proof.
  intros H. inversion H as [? p ? Hpf Hp|? k i ? Hpf Hn Hk Hi|? k i ? Hpf Hn Hk Hi|? k i ? Hpf Hn Hk Hi|? k i ? Hpf Hn Hk Hi|? k ? Hpf Hn Hk];
    subst; cbn [tag_size tag_full]; try (apply T_name in Hn; split; [lia|exact I]).
  - unfold path_size. inversion Hp as [? l ? Hs|sp x l ? Hs]; subst; cbn [segs leading]; apply T_segments in Hs;
      destruct Hs as (Hs1 & Hs2 & Hs3); (split; [weigh; lia|auto]).
  - apply T_name in Hn. unfold path_size. cbn. split; [lia|]. split; [lia|]. constructor; [exact I|constructor].
Qed.
(** No empty path in a tree. *)
Inductive tree_paths : element -> Prop :=
| tree_paths_intro t sels attrs args ch :
    tag_full t ->
    (forall e, In (CElement e) (child_list ch) -> tree_paths e) ->
    (forall e, In (CSlot e) (child_list ch) -> tree_paths e) ->
    tree_paths (Element t sels attrs args ch).
Definition children_paths (l : list child) : Prop :=
  (forall e, In (CElement e) l -> tree_paths e) /\ (forall e, In (CSlot e) l -> tree_paths e).

Lemma T_children E ts cs : children_phrase E ts cs ->
  (forall e, In (CElement e) cs \/ In (CSlot e) cs -> forall ts f, element_phrase E ts e f -> tree_size e <= T ts /\ tree_paths e) ->
  total child_size cs <= T ts /\ children_paths cs.
Proof.
  intros H. induction H as [|ts c ts' cs Hc H IH] using children_phrase_ind; intros Hin.
  - split; [reflexivity|]. split; intros e [].
  - destruct IH as [H1 [H2 H3]]. { intros e He. apply Hin. cbn. tauto. }
    assert (Hone : child_size c <= T ts /\ (forall e, c = CElement e \/ c = CSlot e -> tree_paths e)).
    { inversion Hc as [? v ? Hv Hs|? e ? He Hi Hs Hv|sp x e ? Hs He]; subst; cbn [child_size].
      - split; [eapply T_value; eauto|]. intros e [He|He]; discriminate.
      - destruct (Hin e (or_introl (or_introl eq_refl)) _ _ He). split; auto. intros e' [He'|He']; inversion He'; subst; auto.
      - destruct (Hin e (or_intror (or_introl eq_refl)) _ _ He). split; [weigh; lia|]. intros e' [He'|He']; inversion He'; subst; auto. }
    destruct Hone as [Ho1 Ho2]. split; [rewrite T_app; cbn [total]; lia|].
    split; intros e [He|He]; auto.
Qed.
Lemma T_element E e : forall ts f, element_phrase E ts e f -> tree_size e <= T ts /\ tree_paths e.
Proof.
  induction e as [t sels attrs args ch IHe IHs] using element_children_ind. intros ts f H.
  inversion H as [ts1 t' ts2 sels' ts3 attrs' ts4 args' cs' follow H1 H2 H3 H4]; subst.
  destruct (T_tag _ _ _ _ H1) as [Ht1 Ht2]. assert (Ha := T_attrs _ _ _ H3). assert (Hs := T_selectors _ _ _ H2).
  rewrite tree_size_eq. weigh.
  assert (Hend : S (args_size args + total child_size (child_list ch)) <= T ts4 /\ children_paths (child_list ch)).
  { assert (Hb : forall b cs, ch = Some cs -> block (children_phrase E) b cs -> S (total child_size cs) <= T b /\ children_paths cs).
    { intros b cs -> Hb. cbn [child_list] in *.
      assert (Hin : forall inner, children_phrase E inner cs -> total child_size cs <= T inner /\ children_paths cs).
      { intros inner Hc. eapply T_children; [eassumption|]. intros e [He|He]; [exact (IHe e He)|exact (IHs e He)]. }
      inversion Hb as [inner ? Hc|inner ? Hc]; subst; destruct (Hin _ Hc); split; auto; weigh; lia. }
    inversion H4 as [sp|b cs Hbl|sp a sp' b cs Hp Hbl]; subst; cbn [args_size child_list].
    - split; [weigh; cbn [total]; lia|]. split; intros e [].
    - now apply Hb.
    - destruct (Hb _ _ eq_refl Hbl) as [Hb1 Hb2]. split; auto. weigh. lia. }
  destruct Hend as [He1 [He2 He3]]. split; [lia|]. now constructor.
Qed.
Lemma T_view E ts cs : children_phrase E ts cs -> total child_size cs <= T ts /\ children_paths cs.
Proof. intros H. eapply T_children; eauto. intros e _. apply T_element. Qed.

(** ** What the macro writes *)

Definition call_size (c : call) : nat := 3 + T (call_args c).
Lemma T_chain l : T (chain l) = total call_size l.
Proof.
  induction l as [|c l IH]; [reflexivity|]. change (chain (c :: l)) with (call_tokens c ++ chain l).
  rewrite T_app, IH. unfold call_tokens. weigh. cbn [total]. unfold call_size. lia.
Qed.
Lemma T_value_code v ts : value_code v ts -> T ts <= value_size v + 9.
Proof. intros []; cbn [value_size]; weigh; lia. Qed.
Lemma T_opt_code v ts : opt_value_code v ts -> T ts <= opt_size v + 9.
Proof. intros [|u x H]; cbn [opt_size]; [weigh; lia|]. now apply T_value_code. Qed.
Lemma T_or_true_code v ts : value_or_true_code v ts -> T ts <= opt_size v + 9.
Proof. intros [|u x H]; cbn [opt_size]; [weigh; lia|]. now apply T_value_code. Qed.
Lemma T_html_attr k a c : html_attr_call k a c -> call_size c <= 49 * value_size (kv_value a).
Proof.
  intros [b v Hk Hv|b v H1 H2 H3 H4 Hv|b v i H1 H2 Hi Hv]; assert (Hp := value_pos (kv_value b));
    unfold call_size; cbn [call_args plain_call]; apply T_value_code in Hv; weigh; lia.
Qed.
Lemma T_event k m ts : event_code k m ts -> T ts <= 31.
Proof. intros [k' i Hi|k' i Hi]; weigh; lia. Qed.
Lemma T_use k v ts : use_code k v ts -> T ts <= opt_size v + 24.
Proof.
  intros [k' i Hi|k' i u x Hi Hv]; cbn [opt_size]; weigh; [lia|]. apply T_value_code in Hv. lia.
Qed.
Lemma T_html_dir d c : html_dir_call d c -> call_size c <= 49 * (2 + opt_size (d_value d)).
Proof.
  intros [n k v x Hn Hv|k v x Hv|k m v ev x He Hv|k v x Hu]; unfold call_size; cbn [call_args plain_call d_value].
  - apply T_opt_code in Hv. weigh. lia.
  - apply T_opt_code in Hv. weigh. lia.
  - apply T_opt_code in Hv. apply T_event in He. weigh. lia.
  - apply T_use in Hu. lia.
Qed.
Lemma T_name_block k : one_token (name_block k) = 2 + 5 * k_spans k.
Proof.
  unfold name_block. weigh. rewrite T_concat.
  assert (H : forall n, total T (repeat [word "let"; word "__x"; sym "="; parens []; sym ";"] n) = 5 * n).
  { induction n as [|n IH]; auto. cbn [repeat total]. rewrite IH. weigh. lia. }
  rewrite H. lia.
Qed.
Lemma T_class_call k : call_size (class_call k) = 8 + 5 * k_spans k.
Proof. unfold call_size, class_call. cbn [call_args plain_call]. weigh. rewrite T_name_block. lia. Qed.
Lemma T_id_call k : call_size (id_call k) = 5 + 5 * k_spans k.
Proof. unfold call_size, id_call. cbn [call_args plain_call]. weigh. rewrite T_name_block. lia. Qed.
Lemma T_html_selectors l : total call_size (map class_call (classes_of l)) + total call_size (map id_call (ids_of l)) <= 49 * total sel_size l.
Proof.
  induction l as [|[k|k] l IH]; cbn [classes_of ids_of map total sel_size]; [lia| |]; rewrite ?T_class_call, ?T_id_call; lia.
Qed.
Lemma attrs_split_size l : total attr_size l =
  total (fun a => value_size (kv_value a)) (kvs_of l) + total (fun d => 2 + opt_size (d_value d)) (dirs_of l) +
  total (fun x => 3 + T x) (spreads_of l).
Proof. induction l as [|[a|d|s] l IH]; cbn [total kvs_of dirs_of spreads_of attr_size]; lia. Qed.
Lemma attrs_split_size_component l : total attr_size l =
  total (fun a => value_size (kv_value a)) (kvs_of l) + total attr_size (entries_of l) +
  total (fun d => 2 + opt_size (d_value d)) (clones_of l).
Proof.
  induction l as [|[a|d|s] l IH]; cbn [total kvs_of entries_of attr_size]; auto; unfold clones_of in *; cbn [dirs_of filter].
  - lia.
  - destruct (is_clone d); cbn [total attr_size]; lia.
  - lia.
Qed.
Lemma total_up {A B} (R : A -> B -> Prop) (f : A -> nat) (g : B -> nat) n l l' : Forall2 R l l' ->
  (forall x y, In x l -> R x y -> g y <= n * f x) -> total g l' <= n * total f l.
Proof.
  induction 1 as [|x y l l' Hxy H IH]; intros Hx; cbn [total]; [lia|].
  assert (H1 := Hx x y (or_introl eq_refl) Hxy). assert (H2 : total g l' <= n * total f l) by (apply IH; intros; apply Hx; cbn; auto). lia.
Qed.
Lemma T_html_head t head : html_head t head -> T head <= 19.
Proof. intros [i|i|i|k]; weigh; lia. Qed.
Lemma T_child_calls codes : total call_size (map child_call codes) = total (fun c => 3 + T c) codes.
Proof. rewrite total_map. reflexivity. Qed.

(** The code of an HTML element. *)
Lemma T_html t sels attrs args ch out : not_component t ->
  element_code (Element t sels attrs args ch) out ->
  exists codes, Forall2 node_code (non_slots (child_list ch)) codes /\
    T out <= 19 + 49 * total sel_size sels + 49 * total attr_size attrs + total (fun c => 3 + T c) codes.
Proof.
  intros Hn H. apply html_code in H; auto. destruct H as (head & kvs & dirs & codes & Hh & Hk & Hd & Hc & ->).
  exists codes. split; auto. rewrite T_app, T_chain, !total_app, T_child_calls, attrs_split_size.
  apply T_html_head in Hh. assert (Hs := T_html_selectors sels).
  apply total_up with (f := fun a => value_size (kv_value a)) (g := call_size) (n := 49) in Hk; [|intros a c _; apply T_html_attr].
  apply total_up with (f := fun d => 2 + opt_size (d_value d)) (g := call_size) (n := 49) in Hd; [|intros d c _; apply T_html_dir].
  assert (Hx : total call_size (map spread_call (spreads_of attrs)) <= 49 * total (fun x => 3 + T x) (spreads_of attrs)).
  { induction (spreads_of attrs) as [|x l IH]; cbn [map total]; [lia|]. unfold call_size at 1. cbn [call_args spread_call plain_call]. lia. }
  lia.
Qed.

(** Components. *)
Lemma T_path_code p ts : path_code p ts -> tag_full (TagComponent p) -> T ts + 20 <= 21 * path_size p.
Proof.
  assert (Hseg : forall s x, seg_code s x -> seg_full s -> T x + 20 <= 21 * seg_size s).
  { intros s x [i|i b g] Hf; unfold seg_full, seg_size, seg_generics in *; cbn [seg_args] in *; weigh; lia. }
  assert (Hsegs : forall l x, segs_code l x -> Forall seg_full l -> 1 <= List.length l ->
    T x + 20 <= 21 * (total seg_size l + 2 * (List.length l - 1))).
  { induction 1 as [|s x Hs|s x s' l y Hs H IH]; intros Hf Hl; [cbn in Hl; lia| |]; inversion Hf as [|? ? Hf1 Hf2]; subst.
    - apply Hseg in Hs; auto. cbn [total List.length]. lia.
    - apply Hseg in Hs; auto. assert (Hr := IH Hf2 ltac:(cbn; lia)). cbn [total List.length] in *. weigh. lia. }
  intros H [Hl Hf]. unfold path_size. destruct H as [l x H|l x H]; cbn [segs leading] in *; apply Hsegs in H; auto; weigh; lia.
Qed.
Lemma T_prop a c : prop_call a c -> call_size c <= 49 * value_size (kv_value a).
Proof.
  intros [b i v Hi Hv]. assert (Hp := value_pos (kv_value b)). unfold call_size. cbn [call_args]. apply T_value_code in Hv. lia.
Qed.
Lemma T_clone d ts : clone_code d ts -> T ts <= 49 * (2 + opt_size (d_value d)).
Proof. intros [k i Hi]. weigh. lia. Qed.
Lemma T_entry a ts : entry_code a ts -> S (T ts) <= 49 * attr_size a.
Proof.
  intros [x|n k m v x Hn Hv|n c m v x Hn Hv|k m v x Hc Hv|k i m v x H1 H2 H3 Hi Hv|k i m v x Hi Hv|k m v ev x He Hv|k v x Hu];
    cbn [attr_size d_value]; try apply T_or_true_code in Hv; try apply T_use in Hu; weigh; try lia.
  apply T_opt_code in Hv. apply T_event in He. lia.
Qed.
Lemma T_comma_ended l : T (comma_ended l) = total (fun c => S (T c)) l.
Proof. unfold comma_ended. rewrite T_concat, total_map. apply total_ext. intros x _. weigh. lia. Qed.
Lemma T_comma_separated l : T (comma_separated l) <= total (fun c => S (T c)) l.
Proof.
  induction l as [|x [|y l] IH]; auto; [cbn [comma_separated total]; lia|].
  change (comma_separated (x :: y :: l)) with (x ++ sym "," :: comma_separated (y :: l)). weigh. cbn [total] in *. lia.
Qed.
Lemma T_fragment codes : T (fragment codes) = 14 + total (fun c => S (T c)) codes.
Proof. unfold fragment. weigh. rewrite T_comma_ended. lia. Qed.
Lemma T_rendered ts : T (rendered ts) = 13 + T ts.
Proof. unfold rendered. weigh. lia. Qed.
Lemma T_children_calls args clones codes :
  total call_size (children_calls args clones codes) <=
    34 * Nat.min 1 (List.length codes) + total T clones + args_size args + total (fun c => S (T c)) codes.
Proof.
  unfold children_calls. destruct codes as [|c codes]; [cbn [total]; lia|].
  replace (34 * Nat.min 1 (List.length (c :: codes))) with 34 by (cbn [List.length]; lia).
  change (call_size (plain_call "children" [braces (List.concat clones ++ match args with
    | Some a => word "move" :: a ++ fragment (c :: codes)
    | None => abs_path ["leptos"; "children"; "ToChildren"; "to_children"] ++ [parens (word "move" :: bars ++ fragment (c :: codes))] end)]) + 0 <=
    34 + total T clones + args_size args + total (fun c => S (T c)) (c :: codes)).
  unfold call_size. cbn [call_args plain_call]. weigh. rewrite T_concat. destruct args as [a|]; cbn [args_size]; weigh; rewrite T_fragment; lia.
Qed.
Lemma T_slot_arg codes : T (slot_arg codes) <= 22 + total (fun c => S (T c)) codes.
Proof.
  unfold slot_arg. destruct codes as [|c [|c' codes]].
  - weigh. cbn. lia.
  - cbn [total]. lia.
  - assert (H := T_comma_separated (c :: c' :: codes)). weigh. lia.
Qed.
Lemma slots_named_some slots i : In i (map fst slots) -> 1 <= List.length (slots_named slots i).
Proof.
  induction slots as [|[j c] slots IH]; intros []; unfold slots_named in *; cbn [filter fst] in *.
  - subst. destruct (ident_dec i i); [cbn; lia|congruence].
  - destruct (ident_dec j i); [cbn; lia|auto].
Qed.
Lemma total_length {A} n (l : list A) : total (fun _ => n) l = n * List.length l.
Proof. induction l; cbn [total List.length]; lia. Qed.
Lemma T_slot_calls slots calls : slot_calls slots calls ->
  total call_size calls <= total (fun p => 26 + T (snd p)) slots.
Proof.
  intros [order cs Hn Hin H].
  assert (H1 : total call_size cs <= total (fun i => total (fun c => 26 + T c) (slots_named slots i)) order).
  { replace (total (fun i => total (fun c => 26 + T c) (slots_named slots i)) order)
      with (1 * total (fun i => total (fun c => 26 + T c) (slots_named slots i)) order) by lia.
    apply (total_up _ _ _ _ _ _ H). intros i c Hi Hx. inversion Hx as [j m Hm Hr]; subst.
    apply Hin in Hi. apply slots_named_some in Hi. unfold call_size. cbn [call_args].
    assert (Ha := T_slot_arg (slots_named slots i)).
    assert (Hb : total (fun c => 26 + T c) (slots_named slots i) = 25 * List.length (slots_named slots i) + total (fun c => S (T c)) (slots_named slots i)).
    { rewrite <- total_length, <- total_add. apply total_ext. intros; lia. }
    lia. }
  rewrite (total_grouped (fun c => 26 + T c) order slots Hn) in H1 by (intros i; apply Hin). exact H1.
Qed.
Lemma T_selector_entries l : total (fun c => S (T c)) (selector_entries l) <= 49 * total sel_size l.
Proof.
  unfold selector_entries. rewrite total_app, total_map.
  assert (H1 : total (fun x => S (T (class_entry x))) (classes_of l) + 49 * List.length (ids_of l) <= 49 * total sel_size l).
  { induction l as [|[k|k] l IH]; cbn [classes_of ids_of total sel_size List.length]; [lia|lia|].
    assert (Hc : T (class_entry k) = 20) by (unfold class_entry; weigh; reflexivity). lia. }
  unfold id_entries. destruct (ids_of l) as [|k ks]; cbn [total List.length] in *; [lia|]. weigh. lia.
Qed.
Lemma T_component_frame path calls entries :
  T (component_frame path calls entries) = 48 + 2 * T path + total call_size calls + total (fun c => S (T c)) entries.
Proof.
  unfold component_frame. weigh. rewrite !T_chain, total_app. cbn [total]. unfold call_size at 2 3. cbn [call_args plain_call]. weigh.
  rewrite T_comma_ended. lia.
Qed.
Lemma T_slot_frame path calls : T (slot_frame path calls) = 20 + T path + total call_size calls.
Proof.
  unfold slot_frame. weigh. rewrite T_chain, total_app. cbn [total]. unfold call_size at 2. cbn [call_args plain_call]. weigh. lia.
Qed.
Lemma T_component p sels attrs args ch out : tag_full (TagComponent p) ->
  element_code (Element (TagComponent p) sels attrs args ch) out ->
  exists codes slots, Forall2 node_code (non_slots (child_list ch)) codes /\ slots_code (child_list ch) slots /\
    T out + 40 <= 48 + 34 * Nat.min 1 (List.length codes) + 42 * path_size p + 49 * total sel_size sels + 49 * total attr_size attrs + args_size args +
      total (fun c => S (T c)) codes + total (fun q => 26 + T (snd q)) slots.
Proof.
  intros Ht H. apply component_code in H.
  destruct H as (path & props & entries & clones & codes & slots & scalls & Hp & H1 & H2 & H3 & H4 & H5 & H6 & ->).
  exists codes, slots. split; auto. split; auto.
  rewrite T_component_frame, !total_app, attrs_split_size_component.
  apply T_path_code in Hp; auto. apply T_slot_calls in H6. assert (Hs := T_selector_entries sels).
  apply total_up with (f := fun a => value_size (kv_value a)) (g := call_size) (n := 49) in H1; [|intros a c _; apply T_prop].
  apply total_up with (f := fun d => 2 + opt_size (d_value d)) (g := T) (n := 49) in H3; [|intros d c _; apply T_clone].
  apply total_up with (f := attr_size) (g := fun c => S (T c)) (n := 49) in H2; [|intros a c _; apply T_entry].
  assert (Hc := T_children_calls args clones codes). lia.
Qed.
Lemma T_slot t sels attrs args ch out : tag_full t ->
  slot_code (Element t sels attrs args ch) out ->
  exists codes, Forall2 node_code (non_slots (child_list ch)) codes /\
    T out + 20 <= 20 + 34 + 21 * tag_size t + 49 * total attr_size attrs + args_size args + total (fun c => S (T c)) codes.
Proof.
  intros Ht H. apply slot_code_inv in H.
  destruct H as (p & path & props & clones & codes & -> & -> & He & Hp & H1 & H3 & H4 & ->).
  exists codes. split; auto. rewrite T_slot_frame, !total_app, attrs_split_size_component. cbn [tag_size].
  apply T_path_code in Hp; auto.
  apply total_up with (f := fun a => value_size (kv_value a)) (g := call_size) (n := 49) in H1; [|intros a c _; apply T_prop].
  apply total_up with (f := fun d => 2 + opt_size (d_value d)) (g := T) (n := 49) in H3; [|intros d c _; apply T_clone].
  assert (Hc := T_children_calls args clones codes). lia.
Qed.

(** ** Input against output *)

Lemma size_split l : total child_size l = total child_size (non_slots l) + total (fun e => 2 + tree_size e) (slot_children l).
Proof. induction l as [|[v|e|e] l IH]; cbn [total non_slots slot_children child_size]; lia. Qed.
Lemma tag_pos t : tag_full t -> 1 <= tag_size t.
Proof.
  destruct t as [i|p|i|i|k]; cbn [tag_full tag_size]; auto. intros [H _]. unfold path_size.
  destruct (segs p) as [|s l]; [cbn in H; lia|]. cbn [total]. unfold seg_size at 1. lia.
Qed.
(** Room for what is around the code of a child. *)
Lemma value_room v ts : value_code v ts -> T ts + 45 <= 49 * value_size v.
Proof. intros []; cbn [value_size]; weigh; lia. Qed.
Lemma nodes_up n l codes : n <= 32 -> Forall2 node_code (non_slots l) codes ->
  (forall e code, In (CElement e) l -> element_code e code -> T code + 45 <= 49 * tree_size e) ->
  total (fun c => n + T c) codes + (32 - n) * List.length codes <= 49 * total child_size (non_slots l).
Proof.
  intros Hn H He. rewrite <- (total_length (32 - n)), <- total_add.
  apply (total_up node_code child_size _ 49 _ _ H). intros c x Hin Hx.
  destruct Hx as [v ts Hv|e ts Hx]; rewrite T_rendered; cbn [child_size].
  - apply value_room in Hv. lia.
  - apply He in Hx; [lia|]. now apply non_slots_in_element.
Qed.
Lemma size_le e : tree_paths e ->
  (forall code, element_code e code -> T code + 45 <= 49 * tree_size e) /\
  (forall code, slot_code e code -> T code <= 49 * tree_size e).
Proof.
  induction e as [t sels attrs args ch IHe IHs] using element_children_ind. intros Hok. inversion Hok as [? ? ? ? ? Ht Hce Hcs]; subst.
  assert (Hnodes : forall n codes, n <= 32 -> Forall2 node_code (non_slots (child_list ch)) codes ->
    total (fun c => n + T c) codes + (32 - n) * List.length codes <= 49 * total child_size (non_slots (child_list ch))).
  { intros n codes Hn Hc. apply nodes_up; auto.
    intros e code Hin Hx. exact (proj1 (IHe e Hin (Hce e Hin)) code Hx). }
  assert (Hpos := tag_pos t Ht). rewrite tree_size_eq, size_split. split; intros code H.
  - destruct t as [i|p|i|i|k].
    2: { destruct (T_component _ _ _ _ _ _ Ht H) as (codes & slots & Hc & Hs & Hout).
         apply (Hnodes 1) in Hc; [|lia]. cbn [Nat.add Nat.sub] in Hc.
         assert (Hsl : total (fun q => 26 + T (snd q)) slots <= 49 * total (fun e => 2 + tree_size e) (slot_children (child_list ch))).
         { apply slot_codes_each in Hs. apply (total_up _ _ _ _ _ _ Hs). intros e q Hin Hx. apply slots_in_in in Hin.
           assert (Hy := proj2 (IHs e Hin (Hcs e Hin)) _ Hx). lia. }
         cbn [tag_size] in *. lia. }
    all: apply T_html in H; [|intros p Hx; discriminate Hx]; destruct H as (codes & Hc & Hout);
      apply (Hnodes 3) in Hc; [|lia]; lia.
  - destruct (T_slot _ _ _ _ _ _ Ht H) as (codes & Hc & Hout). apply (Hnodes 1) in Hc; [|lia]. cbn [Nat.add Nat.sub] in Hc. lia.
Qed.
Lemma T_root code : T (root_frame code) = 6 + T code.
Proof. unfold root_frame. weigh. lia. Qed.
Lemma view_size E input cs out : children_phrase E input cs -> root_code cs out ->
  (input = [] /\ T out = 20) \/ T out + 26 <= 49 * T input.
Proof.
  intros Hc H. destruct (T_view E input cs Hc) as [Hi [Hce _]].
  assert (He : forall e code, In (CElement e) cs -> element_code e code -> T code + 45 <= 49 * tree_size e).
  { intros e code Hin Hx. exact (proj1 (size_le e (Hce e Hin)) code Hx). }
  inversion H as [c code Hs Hn|cs' codes Hl Hs Hn]; subst; rewrite T_root; apply nodes_each in Hn; assert (Hn' := nodes_up 1 _ _ ltac:(lia) Hn He).
  - right. rewrite non_slots_all in Hn' by (intros e [Hx|[]]; now apply (Hs e)). cbn [total List.length] in *. lia.
  - rewrite non_slots_all in Hn, Hn' by exact Hs. rewrite T_fragment. cbn [Nat.add Nat.sub] in Hn'.
    assert (Hlen : List.length cs = List.length codes) by (clear - Hn; induction Hn; cbn; auto). destruct cs as [|c [|c' cs]].
    + left. inversion Hn; subst. inversion Hc; subst. split; reflexivity.
    + now destruct Hl.
    + right. cbn [List.length] in Hlen. lia.
Qed.
