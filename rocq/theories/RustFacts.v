(** Expansions are Rust expressions. *)
From Verif Require Import OriginFacts PhraseInv CodeFacts SpecRust SpecOut SpecRead SpecGrammar SpecStr.
Open Scope list_scope.

(** ** Keywords *)

Lemma usable_dec s : existsb (String.eqb s) keyword_names = false -> usable (Id false s).
Proof.
  intros H. right. cbn [i_name]. intros Hin. apply not_true_iff_false in H. apply H, existsb_exists. exists s. split; auto. apply String.eqb_refl.
Qed.
Lemma usable_raw s : usable (Id true s).
Proof. now left. Qed.
Lemma usable_name k i : name_ident_ok k i -> usable i.
Proof. intros [_ ->]. now left. Qed.
Ltac word_ok := apply usable_dec; reflexivity.

Section Facts.
Variable U : code.
Notation Items := (rust_items U true).
Notation Tuple := (rust_items U false).
Notation Expr := (rust_expr U).
Notation Post := (rust_postfix U).

(** ** Paths *)

Lemma segments_app a b : rust_segments U a -> rust_segments U b -> rust_segments U (a ++ dcolon ++ b).
Proof.
  induction 1 as [s H|s r H H1 IH]; intros Hb; [now apply rss_more|].
  rewrite <- !app_assoc. apply rss_more; auto.
Qed.
Lemma segment_word i : usable i -> rust_segments U [TIdent i].
Proof. intros H. apply rss_one, rs_plain. now left. Qed.
Definition all_words (l : list string) : bool :=
  forallb (fun s => negb (existsb (String.eqb s) keyword_names)) l.
Lemma words_segments l : forall s, all_words (s :: l) = true -> rust_segments U (word s :: abs_path l).
Proof.
  induction l as [|s' l IH]; intros s H; cbn [all_words forallb] in H; apply andb_true_iff in H; destruct H as [H1 H2];
    apply negb_true_iff in H1.
  - apply segment_word. now apply usable_dec.
  - change (word s :: abs_path (s' :: l)) with ([word s] ++ dcolon ++ (word s' :: abs_path l)).
    apply segments_app; [apply segment_word; now apply usable_dec|auto].
Qed.
Lemma words_path l : l <> [] -> all_words l = true -> rust_path U (abs_path l).
Proof.
  destruct l as [|s l]; [congruence|]. intros _ H. apply (rp_abs U (word s :: abs_path l)). now apply words_segments.
Qed.
Lemma words_path_word l i : l <> [] -> all_words l = true -> usable i -> rust_path U (abs_path l ++ dcolon ++ [TIdent i]).
Proof.
  destruct l as [|s l]; [congruence|]. intros _ H Hi.
  change (abs_path (s :: l)) with (dcolon ++ (word s :: abs_path l)). rewrite <- app_assoc. apply rp_abs.
  apply segments_app; [now apply words_segments|now apply segment_word].
Qed.
Lemma path_expr sc p : rust_path U p -> Expr sc p.
Proof. intros H. apply re_postfix, rpo_primary. now apply rp_path. Qed.
Lemma path_call sc p args : rust_path U p -> Items sc args -> Expr sc (p ++ [parens args]).
Proof. intros H Ha. apply re_postfix, rpo_call; auto. now apply rpo_primary, rp_path. Qed.
Lemma path_call_post sc p args : rust_path U p -> Items sc args -> Post sc (p ++ [parens args]).
Proof. intros H Ha. apply rpo_call; auto. now apply rpo_primary, rp_path. Qed.
Lemma words_call sc l i args : l <> [] -> all_words l = true -> usable i -> Items sc args ->
  Post sc (abs_path l ++ dcolon ++ [TIdent i; parens args]).
Proof.
  intros Hl Ha Hi H. change [TIdent i; parens args] with ([TIdent i] ++ [parens args]).
  rewrite (app_assoc dcolon), app_assoc. apply path_call_post; auto. now apply words_path_word.
Qed.

(** ** Lists *)

Lemma one b sc e : Expr sc e -> rust_items U b sc e.
Proof. intros H. apply ris_last. now constructor. Qed.
Lemma cons_item b sc e r : Expr sc e -> rust_items U b sc r -> rust_items U b sc (e ++ sym "," :: r).
Proof. intros H Hr. apply ris_more; auto. now constructor. Qed.
Lemma prim_expr sc e : rust_primary U sc e -> Expr sc e.
Proof. intros H. now apply re_postfix, rpo_primary. Qed.
Lemma str_expr sc s : Expr sc [str s].
Proof. apply prim_expr, rp_lit. Qed.
Lemma true_expr sc : Expr sc [word "true"].
Proof. apply prim_expr, rp_true. Qed.
Lemma str_then b sc s r : rust_items U b sc r -> rust_items U b sc (str s :: sym "," :: r).
Proof. intros H. apply (cons_item b sc [str s] r); auto. apply str_expr. Qed.
Lemma tuple_expr sc ts : Tuple sc ts -> Expr sc [parens ts].
Proof. intros H. now apply prim_expr, rp_tuple. Qed.
Lemma comma_ended_items b sc l : Forall (Expr sc) l -> rust_items U b sc (comma_ended l).
Proof.
  induction 1 as [|x l H Hl IH]; [constructor|]. unfold comma_ended in *. cbn [map List.concat].
  rewrite <- app_assoc. now apply cons_item.
Qed.
Lemma comma_separated_items b sc l : Forall (Expr sc) l -> rust_items U b sc (comma_separated l).
Proof.
  induction 1 as [|x l H Hl IH]; [constructor|]. destruct l as [|y l]; [now apply one|].
  change (rust_items U b sc (x ++ sym "," :: comma_separated (y :: l))). now apply cons_item.
Qed.

(** ** Method chains *)

Definition call_fine (sc : scope) (c : call) : Prop := usable (call_name c) /\ Items sc (call_args c).
Lemma chain_post sc l : Forall (call_fine sc) l -> forall e, Post sc e -> Post sc (e ++ chain l).
Proof.
  induction 1 as [|[n a] l [H1 H2] Hl IH]; intros e He; [cbn; now rewrite app_nil_r|].
  change (chain (Call n a :: l)) with (call_tokens (Call n a) ++ chain l). rewrite app_assoc. apply IH.
  unfold call_tokens. cbn [call_name call_args] in *. now apply rpo_method.
Qed.
Lemma plain_fine sc s args : existsb (String.eqb s) keyword_names = false -> Items sc args -> call_fine sc (plain_call s args).
Proof. intros H Ha. split; auto. now apply usable_dec. Qed.

(** ** Values *)

Lemma value_expr sc v ts : value_code v ts -> value_fits U sc v -> Expr sc ts.
Proof.
  intros H Hf. destruct H; cbn [value_fits] in Hf.
  - apply prim_expr, rp_lit.
  - apply true_expr.
  - apply prim_expr, rp_false.
  - now apply prim_expr, rp_user_block.
  - now apply re_thunk, prim_expr, rp_user_block.
  - now apply re_thunk, prim_expr, rp_format.
Qed.
Definition opt_fits sc (o : option value) : Prop := forall v, o = Some v -> value_fits U sc v.
Lemma opt_items b sc o ts : opt_value_code o ts -> opt_fits sc o -> rust_items U b sc ts.
Proof. intros H Hf. destruct H; [constructor|]. apply one. eapply value_expr; eauto. Qed.
Lemma or_true_expr sc o ts : value_or_true_code o ts -> opt_fits sc o -> Expr sc ts.
Proof. intros H Hf. destruct H; [apply true_expr|]. eapply value_expr; eauto. Qed.
Lemma dir_fits sc n k m v : attr_fits U sc (ADir (Directive n k m v)) -> opt_fits sc v.
Proof. intros H. exact H. Qed.

(** ** Attributes *)

Ltac path_ok := apply words_path; [discriminate|reflexivity].
Ltac path_word_ok := apply words_path_word; [discriminate|reflexivity|].

Lemma html_attr_fine sc k a c : html_attr_call k a c -> value_fits U sc (kv_value a) -> call_fine sc c.
Proof.
  intros H Hf. inversion H; subst.
  - apply plain_fine; [reflexivity|]. apply one. eapply value_expr; eauto.
  - apply plain_fine; [reflexivity|]. apply str_then. apply one. apply path_call; [path_ok|].
    apply one. eapply value_expr; eauto.
  - split; cbn [call_name call_args]; [eapply usable_name; eauto|]. apply one. eapply value_expr; eauto.
Qed.
Lemma prop_fine sc a c : prop_call a c -> value_fits U sc (kv_value a) -> call_fine sc c.
Proof.
  intros H Hf. inversion H; subst. split; cbn [call_name call_args]; [eapply usable_name; eauto|].
  apply one. eapply value_expr; eauto.
Qed.
Lemma event_expr sc k m ev : event_code k m ev -> Expr sc ev.
Proof.
  intros H. destruct H as [k i Hi|k i Hi].
  - apply path_expr. unfold tachys_html. path_word_ok. eapply usable_name; eauto.
  - unfold tachys_html. apply re_postfix, words_call; [discriminate|reflexivity|word_ok|].
    apply one, path_expr. path_word_ok. eapply usable_name; eauto.
Qed.
Lemma use_items sc k v ts : use_code k v ts -> opt_fits sc v -> Items sc ts.
Proof.
  intros H Hf. destruct H as [k i Hi|k i v ts Hi Hv]; apply (cons_item true sc [TIdent i]);
    try (apply path_expr, rp_rel, segment_word; eapply usable_name; eauto; fail).
  - apply one. constructor. apply (rpo_method U sc [parens []] (Id false "into") []); [|word_ok|constructor].
    apply rpo_primary, rp_tuple, ris_nil.
  - apply one. apply path_call; [path_ok|]. apply one. eapply value_expr; eauto.
Qed.
Lemma html_dir_fine sc d c : html_dir_call d c -> attr_fits U sc (ADir d) -> call_fine sc c.
Proof.
  intros H Hf. inversion H; subst; apply dir_fits in Hf.
  - apply plain_fine; [destruct H0; subst; reflexivity|]. apply one, tuple_expr, str_then. eapply opt_items; eauto.
  - apply plain_fine; [reflexivity|]. apply str_then. eapply opt_items; eauto.
  - apply plain_fine; [reflexivity|]. apply cons_item; [eapply event_expr; eauto|eapply opt_items; eauto].
  - apply plain_fine; [reflexivity|]. eapply use_items; eauto.
Qed.
Lemma name_block_expr sc k : Expr sc [name_block k].
Proof.
  apply prim_expr, rp_block. generalize (k_spans k) as n. intros n. revert sc.
  induction n as [|n IH]; intros sc; cbn [repeat List.concat app].
  - apply rst_tail; [intros []|apply str_expr].
  - apply (rst_let U sc (Id false "__x") [parens []]); [word_ok| |apply IH]. apply tuple_expr. constructor.
Qed.
Lemma class_fine sc k : call_fine sc (class_call k).
Proof.
  apply plain_fine; [reflexivity|]. apply one, tuple_expr. apply (cons_item false sc [name_block k]); [apply name_block_expr|].
  apply one. apply true_expr.
Qed.
Lemma id_fine sc k : call_fine sc (id_call k).
Proof. apply plain_fine; [reflexivity|]. apply one, name_block_expr. Qed.
Lemma entry_expr sc a c : entry_code a c -> attr_fits U sc a -> Expr sc c.
Proof.
  intros H Hf. inversion H; subst; try apply dir_fits in Hf; unfold tachys_html.
  - now apply re_user.
  - apply path_call; [apply words_path; [discriminate|destruct H0; subst; reflexivity]|].
    apply one, tuple_expr, str_then, one. eapply or_true_expr; eauto.
  - apply re_postfix, words_call; [discriminate|destruct H0; subst; reflexivity|apply usable_raw|].
    apply one. eapply or_true_expr; eauto.
  - apply path_call; [path_ok|]. apply str_then, one. eapply or_true_expr; eauto.
  - apply re_postfix, words_call; [discriminate|reflexivity|eapply usable_name; eauto|].
    apply one. eapply or_true_expr; eauto.
  - apply re_postfix, words_call; [discriminate|reflexivity|eapply usable_name; eauto|].
    apply one. eapply or_true_expr; eauto.
  - apply path_call; [path_ok|]. apply cons_item; [eapply event_expr; eauto|eapply opt_items; eauto].
  - apply path_call; [path_ok|]. eapply use_items; eauto.
Qed.
Lemma selector_entries_expr sc l : Forall (Expr sc) (selector_entries l).
Proof.
  unfold selector_entries. apply Forall_app. split.
  - apply Forall_map, Forall_forall. intros k _. unfold class_entry, tachys_html. apply path_call; [path_ok|].
    apply one, tuple_expr, str_then, one. apply true_expr.
  - unfold id_entries. destruct (ids_of l); [constructor|]. constructor; [|constructor]. unfold tachys_html.
    apply re_postfix, words_call; [discriminate|reflexivity|apply usable_raw|]. apply one, str_expr.
Qed.

(** ** Tags *)

Definition seg_usable (s : path_seg) : Prop := path_word (seg_ident s).
Definition tag_usable (t : tag) : Prop :=
  match t with
  | TagHtml i | TagSvg i | TagMath i => usable i
  | TagComponent p => Forall seg_usable (segs p)
  | TagWeb _ => True
  end.
Lemma head_post sc t head : html_head t head -> tag_usable t -> Post sc head.
Proof.
  intros H Ht. destruct H; cbn [tag_usable] in Ht; unfold tachys_html;
    try (apply words_call; [discriminate|reflexivity|exact Ht|apply ris_nil]).
  apply path_call_post; [path_ok|]. apply one, str_expr.
Qed.
Lemma segs_rust l ts : segs_code l ts -> l <> [] -> Forall seg_usable l ->
  (forall i b g, In (PSeg i (PAngle b g)) l -> ok_generics U g) -> rust_segments U ts.
Proof.
  intros H. assert (Hone : forall s ts, seg_code s ts -> seg_usable s ->
    (forall i b g, s = PSeg i (PAngle b g) -> ok_generics U g) -> rust_segment U ts).
  { intros s ts0 Hs Hu Hg. destruct Hs as [i|i b g]; [now constructor|]. apply rs_generic; [exact Hu|eauto]. }
  induction H as [|s ts H|s ts s' l ts' H H1 IH]; intros Hn Hu Hg; [congruence|..]; inversion Hu; subst.
  - constructor. apply (Hone s); auto. intros i b g ->. apply (Hg i b g). now left.
  - apply rss_more.
    + apply (Hone s); auto. intros i b g ->. apply (Hg i b g). now left.
    + apply IH; auto; [discriminate|]. intros i b g Hin. apply (Hg i b g). now right.
Qed.
Lemma path_rust p ts : path_code p ts -> segs p <> [] -> Forall seg_usable (segs p) -> path_fits U p ->
  rust_path U ts /\ rust_path U (ts ++ dcolon ++ [word "builder"]).
Proof.
  intros H Hn Hu Hf. assert (Hb : rust_segments U [word "builder"]) by (apply segment_word; word_ok).
  destruct H as [l ts H|l ts H]; cbn [segs] in *; assert (Hs := segs_rust _ _ H Hn Hu Hf).
  - split; apply rp_rel; auto. now apply segments_app.
  - split; [now apply rp_abs|]. rewrite <- app_assoc. apply rp_abs. now apply segments_app.
Qed.

(** ** Children *)

Lemma rendered_expr sc ts : Items sc ts -> Expr sc (rendered ts).
Proof. intros H. unfold rendered. apply path_call; auto. path_ok. Qed.
Lemma fragment_expr sc l : Forall (Expr sc) l -> Expr sc (fragment l).
Proof. intros H. unfold fragment. apply path_call; [path_ok|]. apply one, tuple_expr. now apply comma_ended_items. Qed.
Lemma clones_stmts l clones : Forall2 clone_code l clones -> forall sc r,
  rust_stmts U (rev (map clone_var l) ++ sc) r -> rust_stmts U sc (List.concat clones ++ r).
Proof.
  induction 1 as [|d c l clones H Hl IH]; intros sc r Hr; [exact Hr|]. cbn [List.concat]. rewrite <- app_assoc.
  destruct H as [k i Hi].
  change (rust_stmts U sc ([word "let"; TIdent i; sym "="] ++ [TIdent i; sym "."; word "clone"; parens []] ++ sym ";" :: List.concat clones ++ r)).
  assert (Hu := usable_name _ _ Hi). apply rst_let; auto.
  - constructor. apply (rpo_method U sc [TIdent i] (Id false "clone") []); [|word_ok|constructor].
    apply rpo_primary, rp_path, rp_rel. now apply segment_word.
  - apply IH. destruct Hi as [_ ->]. cbn [map rev] in Hr. unfold clone_var in Hr at 2. cbn [d_key key_text] in Hr.
    rewrite <- app_assoc in Hr. exact Hr.
Qed.
Definition pipes (args : option (list tt)) : Prop :=
  forall a, args = Some a -> exists ps, a = sym "|" :: ps ++ [sym "|"].
Lemma children_fine sc attrs args clones codes : pipes args ->
  Forall2 clone_code (clones_of attrs) clones ->
  (codes <> [] -> forall ps, In (Params ps) (params_of args) -> ok_params U (clone_scope attrs ++ sc) ps) ->
  Forall (Expr (inner_scope attrs args sc)) codes ->
  Forall (call_fine sc) (children_calls args clones codes).
Proof.
  intros Ha Hc Hps Hk. unfold children_calls. destruct codes as [|c codes]; [constructor|]. constructor; [|constructor].
  apply plain_fine; [reflexivity|]. apply one. apply prim_expr, rp_block.
  assert (Hf := fragment_expr _ _ Hk). apply (clones_stmts _ _ Hc). fold (clone_scope attrs).
  destruct args as [a|].
  - destruct (Ha a eq_refl) as (ps & ->). unfold inner_scope in Hf. cbn [params_of] in Hps, Hf. rewrite removelast_last in *.
    apply rst_tail; [intros []|]. cbn [app]. rewrite <- app_assoc. apply re_closure; [|exact Hf].
    apply Hps; [discriminate|]. now left.
  - apply rst_tail; [intros []|]. apply path_call; [path_ok|]. apply one, re_thunk. exact Hf.
Qed.
Lemma slot_arg_items sc l : Forall (Expr sc) l -> Items sc (slot_arg l).
Proof.
  intros H. assert (Hs := comma_separated_items true _ _ H).
  assert (Hv : Items sc ([sym "<"; brackets [word "_"]; sym ">"] ++ dcolon ++
         [word "into_vec"; parens (abs_path ["std"; "boxed"; "Box"; "new"] ++ [parens [brackets (comma_separated l)]])])).
  { apply one. change [word "into_vec"; ?x] with ([word "into_vec"] ++ [x]). rewrite !app_assoc. apply path_call.
    - rewrite <- app_assoc. apply rp_slice, segment_word. word_ok.
    - apply one, path_call; [path_ok|]. apply one. now apply prim_expr, rp_array. }
  unfold slot_arg. destruct l as [|c [|c' l]]; auto.
Qed.
Lemma slot_calls_fine sc slots calls : slot_calls slots calls -> Forall (fun p => Expr sc (snd p)) slots ->
  Forall (call_fine sc) calls.
Proof.
  intros [order cs Hn Hin H] Hs. clear Hn Hin. induction H as [|i c order cs H Hl IH]; constructor; auto.
  destruct H as [i m Hm Hr]. split; cbn [call_name call_args]; [apply usable_raw|]. apply slot_arg_items.
  unfold slots_named. apply Forall_map, Forall_forall. intros p Hp. apply filter_In in Hp.
  exact (proj1 (Forall_forall _ _) Hs p (proj1 Hp)).
Qed.
Lemma build_fine sc : call_fine sc (plain_call "build" []).
Proof. apply plain_fine; [reflexivity|constructor]. Qed.
Lemma component_item sc path calls entries : rust_path U path -> Forall (call_fine sc) calls -> Forall (Expr sc) entries ->
  Items sc (component_frame path calls entries).
Proof.
  intros Hp Hc He. unfold component_frame. apply ris_last. rewrite app_assoc, <- app_assoc. apply ri_attr.
  { apply (attribute_intro (Id false "allow") [word "unreachable_code"]). word_ok. }
  apply path_call; [path_ok|]. apply one. constructor. rewrite app_assoc. apply chain_post.
  - constructor; [|constructor]. apply plain_fine; [reflexivity|]. apply one, tuple_expr. now apply comma_ended_items.
  - apply path_call_post; [path_ok|]. apply (cons_item true sc (sym "&" :: path)).
    { now apply re_ref, rpo_primary, rp_path. }
    apply one. constructor. rewrite app_assoc. apply chain_post.
    + apply Forall_app. split; auto. constructor; [apply build_fine|constructor].
    + apply path_call_post; [path_ok|]. apply one. now apply re_ref, rpo_primary, rp_path.
Qed.
Lemma slot_expr sc path calls : rust_path U (path ++ dcolon ++ [word "builder"]) -> Forall (call_fine sc) calls ->
  Expr sc (slot_frame path calls).
Proof.
  intros Hp Hc. unfold slot_frame. apply path_call; [path_ok|]. apply one. constructor.
  change [word "builder"; ?x] with ([word "builder"] ++ [x]).
  replace (path ++ dcolon ++ ([word "builder"] ++ [parens []]) ++ chain (calls ++ [plain_call "build" []]))
    with (((path ++ dcolon ++ [word "builder"]) ++ [parens []]) ++ chain (calls ++ [plain_call "build" []]))
    by (rewrite <- !app_assoc; reflexivity).
  apply chain_post.
  - apply Forall_app. split; auto. constructor; [apply build_fine|constructor].
  - apply path_call_post; [exact Hp|constructor].
Qed.

(** ** Elements *)

Definition Rtree := tree (fun t => tag_usable t /\ forall p, t = TagComponent p -> segs p <> [])
  (fun _ => True) (fun _ => True) (fun a => exists ps, a = sym "|" :: ps ++ [sym "|"]) (fun _ => True).
Definition Relem := tree_elem (fun t => tag_usable t /\ forall p, t = TagComponent p -> segs p <> [])
  (fun _ => True) (fun _ => True) (fun a => exists ps, a = sym "|" :: ps ++ [sym "|"]) (fun _ => True).

Lemma calls_fine {A} (R : A -> call -> Prop) l cs sc : Forall2 R l cs ->
  (forall a c, In a l -> R a c -> call_fine sc c) -> Forall (call_fine sc) cs.
Proof. induction 1; intros Hx; constructor; [eapply Hx; eauto; now left|]. apply IHForall2. intros a c Hin. apply Hx. now right. Qed.
Lemma exprs_fine {A} (R : A -> list tt -> Prop) l cs (Q : list tt -> Prop) : Forall2 R l cs ->
  (forall a c, In a l -> R a c -> Q c) -> Forall Q cs.
Proof. induction 1; intros Hx; constructor; [eapply Hx; eauto; now left|]. apply IHForall2. intros a c Hin. apply Hx. now right. Qed.

Lemma value_in_slots v l : In (CValue v) (non_slots l) -> In (CValue v) l.
Proof.
  induction l as [|[y|y|y] l IH]; cbn; auto; intros [H|H]; auto; discriminate H.
Qed.
Lemma nodes_expr sc l codes : Forall2 node_code (non_slots l) codes ->
  (forall v, In (CValue v) l -> value_fits U sc v) ->
  (forall e c, In (CElement e) l -> element_code e c -> Items sc c) -> Forall (Expr sc) codes.
Proof.
  intros H Hv He. apply (exprs_fine _ _ _ _ H). intros x c Hin Hx.
  destruct Hx as [v ts Hx|e ts Hx]; apply rendered_expr.
  - apply value_in_slots in Hin. apply one. eapply value_expr; eauto.
  - apply (He e); auto. now apply non_slots_in_element.
Qed.

Lemma out_rust e : Relem e -> forall sc,
  (fits U sc false e -> forall out, element_code e out -> Items sc out) /\
  (fits U sc true e -> forall out, slot_code e out -> Expr sc out).
Proof.
  induction e as [t sels attrs args ch IHe IHs] using element_children_ind. intros Ho sc.
  inversion Ho as [? ? ? ? ? [Ht Hseg] _ _ Hr Hc]; subst.
  assert (Hattr : forall a, In a (kvs_of attrs) -> (forall a, In a attrs -> attr_fits U sc a) -> value_fits U sc (kv_value a)).
  { intros a Hin H. rewrite <- kvs_of_in in Hin. exact (H _ Hin). }
  assert (Hnodes : forall sc' codes, Forall2 node_code (non_slots (child_list ch)) codes ->
     (forall v, In (CValue v) (child_list ch) -> value_fits U sc' v) ->
     (forall e, In (CElement e) (child_list ch) -> fits U sc' false e) -> Forall (Expr sc') codes).
  { intros sc' codes Hn Hv He. apply (nodes_expr _ _ _ Hn Hv). intros e c Hin Hx.
    refine (proj1 (IHe e Hin _ sc') (He e Hin) c Hx). apply Hc in Hin. now inversion Hin. }
  assert (Hkids : forall clones codes, Forall2 clone_code (clones_of attrs) clones ->
     Forall2 node_code (non_slots (child_list ch)) codes ->
     (non_slots (child_list ch) <> [] ->
        forall ps, In (Params ps) (params_of args) -> ok_params U (clone_scope attrs ++ sc) ps) ->
     Forall (Expr (inner_scope attrs args sc)) codes -> Forall (call_fine sc) (children_calls args clones codes)).
  { intros clones codes Hcl Hn Hps Hk. apply (children_fine sc attrs); auto. intros Hne. apply Hps.
    intros Hz. rewrite Hz in Hn. inversion Hn; subst. congruence. }
  split; intros Hf code H.
  - destruct t as [i|p|i|i|k].
    2: { inversion Hf as [? ? ? ? ? ? ? Hx|? ? ? ? ? ? ? Hpf Haf Hps Hvf Hef Hsf]; subst; [now destruct (Hx p)|].
      apply component_code in H.
      destruct H as (path & props & entries & clones & codes & slots & scalls & Hp & H1 & H2 & H3 & H4 & H5 & H6 & ->).
      apply component_item.
      - apply (path_rust p); auto.
      - rewrite !Forall_app. split; [|split].
        + apply (calls_fine _ _ _ _ H1). intros a c Hin Hx. eapply prop_fine; eauto.
        + apply Hkids; auto.
        + apply (slot_calls_fine _ _ _ H6). specialize (Hsf eq_refl).
          revert H5. generalize slots. assert (Hx : forall e, In (CSlot e) (child_list ch) -> forall code, slot_code e code -> Expr sc code).
          { intros e Hin. assert (Hi := Hc _ Hin). inversion Hi; subst. refine (proj2 (IHs e Hin _ sc) _); auto. }
          clear - Hx. induction (child_list ch) as [|c l IH]; intros slots H; inversion H; subst; try constructor;
            try (apply IH; auto; intros e0 Hin0; apply Hx; now right).
          apply (Hx e); auto. now left.
      - apply Forall_app. split; [apply selector_entries_expr|]. apply (exprs_fine _ _ _ _ H2).
        intros a c Hin Hx. apply (entry_expr sc a); auto. apply Haf. now apply entries_of_in. }
    all: inversion Hf as [? ? ? ? ? ? ? Hx Haf Hvf Hef|]; subst;
      apply html_code in H; [|intros p Hy; discriminate Hy]; destruct H as (head & kvs & dirs & codes & Hh & Hk & Hd & Hn & ->);
      apply one; constructor; apply chain_post; [|eapply head_post; eauto]; rewrite !Forall_app;
      (split; [apply (calls_fine _ _ _ _ Hk); intros a c Hin Hy; eapply html_attr_fine; eauto|]);
      (split; [apply (calls_fine _ _ _ _ Hd); intros d c Hin Hy; rewrite <- dirs_of_in in Hin; eapply html_dir_fine; eauto|]);
      (split; [apply Forall_map, Forall_forall; intros; apply class_fine|]);
      (split; [apply Forall_map, Forall_forall; intros; apply id_fine|]);
      (split; [apply Forall_map, Forall_forall; intros x Hy; rewrite <- spreads_of_in in Hy; apply plain_fine; [reflexivity|];
               apply one, re_user; exact (Haf _ Hy)|]);
      apply Forall_map; (eapply Forall_impl; [|exact (Hnodes sc codes Hn Hvf Hef)]); intros x Hy; (apply plain_fine; [reflexivity|now apply one]).
  - apply slot_code_inv in H. destruct H as (p & path & props & clones & codes & -> & -> & He & Hp & H1 & H3 & H4 & ->).
    inversion Hf as [? ? ? ? ? ? ? Hx|? ? ? ? ? ? ? Hpf Haf Hps Hvf Hef Hsf]; subst; [now destruct (Hx p)|].
    apply slot_expr; [apply (path_rust p); auto|]. apply Forall_app. split; [|apply Hkids; auto].
    apply (calls_fine _ _ _ _ H1). intros a c Hin Hx. eapply prop_fine; eauto.
Qed.

(** ** The tree of a phrase *)

Lemma upper_not_keyword s : starts_upper s -> In s keyword_names -> s = "Self".
Proof.
  intros H Hin. cbn [keyword_names In] in Hin.
  repeat (destruct Hin as [<-|Hin]; [first [reflexivity|exfalso; cbv in H; lia]|]). destruct Hin.
Qed.
Lemma snake_upper s : starts_upper s -> starts_upper (snake_name s).
Proof.
  intros H. destruct s as [|c s]; [destruct H|]. unfold starts_upper in *. cbn in *.
  destruct (ascii_dec c "-") as [->|Hd]; [cbv in H; lia|]. exact H.
Qed.
Lemma segment_usable E ts s f : segment_phrase E ts s f -> seg_usable s.
Proof.
  assert (Hp : forall i, plain_segment i -> path_word i).
  { intros i [H|[H| ->]]; [left; now left|left; now right|]. right. cbn. tauto. }
  intros H. destruct H as [i f H|i f H|i g f H|i sp g f H]; unfold seg_usable; cbn [seg_ident]; auto.
  right. destruct H as [->|[->| ->]]; cbn; tauto.
Qed.
Lemma segments_usable E ts l f : segments_phrase E ts l f -> Forall seg_usable l /\ l <> [].
Proof.
  induction 1 as [ts s f H|ts s sp ts' l f H H1 [IH _]]; (split; [|discriminate]); constructor; auto; eapply segment_usable; eauto.
Qed.
Lemma tag_phrase_usable E ts t f : tag_phrase E ts t f -> tag_usable t /\ forall p, t = TagComponent p -> segs p <> [].
Proof.
  intros H. destruct H as [ts p f _ H|ts k i f _ _ Hk Hi|ts k i f _ _ _ Hi|ts k i f _ _ _ Hi|ts k i f _ _ _ Hi|ts k f];
    cbn [tag_usable]; try (split; [try (eapply usable_name; eassumption); exact I|discriminate]).
  - destruct H as [ts l f H|sp ts l f H]; apply segments_usable in H; cbn [segs]; (split; [apply H|]); intros p Hp; inversion Hp; subst; apply H.
  - split; [|intros p Hp; inversion Hp; subst; discriminate]. cbn [segs]. constructor; [|constructor].
    unfold seg_usable. cbn [seg_ident]. left. right. cbn [i_name]. destruct Hi as [Hr ->]. cbn [i_name]. intros Hin.
    apply upper_not_keyword in Hin; [|apply snake_upper; inversion Hk; auto]. rewrite Hin in Hr. apply Hr. cbn. tauto.
Qed.
Lemma phrase_rust E input cs : children_phrase E input cs -> Forall Rtree cs.
Proof.
  apply (phrase_tree _ _ _ _ _ E (fun _ => True)) with (n := S (size input)); auto.
  - intros ts t f _. apply tag_phrase_usable.
  - intros sp args sp' _ _. now exists args.
Qed.
Theorem view_rust E input cs out : children_phrase E input cs -> view_fits U cs -> root_code cs out ->
  exists body, out = [braces body] /\ rust_stmts U [] body.
Proof.
  intros Hc [Hv He] H. apply phrase_rust in Hc.
  assert (Hel : forall e c, In (CElement e) cs -> element_code e c -> Items [] c).
  { intros e c Hin Hx. assert (Ht := proj1 (Forall_forall _ _) Hc _ Hin). inversion Ht as [|? Ho|]; subst.
    exact (proj1 (out_rust e Ho []) (He e Hin) c Hx). }
  inversion H as [c code Hs Hn|cs' codes Hl Hs Hn]; subst; unfold root_frame; eexists; (split; [reflexivity|]);
    apply nodes_each in Hn; assert (Hx := nodes_expr _ _ _ Hn Hv Hel);
    (apply rst_attr_tail; [apply (attribute_intro (Id false "allow") [word "unused_braces"]); word_ok|..]).
  - inversion Hn as [|? ? ? ? Hn1 _]; subst. destruct Hn1; intros [].
  - now inversion Hx.
  - intros [].
  - now apply fragment_expr.
Qed.
End Facts.
