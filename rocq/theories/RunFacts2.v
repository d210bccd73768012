(** Running emitted code: elements, components, slots, views. *)
From Verif Require Import Ast SpecStr SpecGrammar SpecOut SpecRead SpecRun SpecView Monad EqualFacts EqualFacts3 RunFacts.
From Coq Require Import Lia.
Open Scope string_scope.
Open Scope list_scope.

(** ** Sizes *)

Lemma size_in d x ts : In (TGroup d x) ts -> size x < size ts.
Proof.
  induction ts as [|t ts IH]; [easy|]. intros [->|H].
  - change (size (TGroup d x :: ts)) with (tt_size (TGroup d x) + size ts). rewrite tt_size_group. lia.
  - specialize (IH H). change (size (t :: ts)) with (tt_size t + size ts). lia.
Qed.
Lemma size_concat x l : In x l -> size x <= size (List.concat l).
Proof.
  induction l as [|y l IH]; [easy|]. cbn [List.concat]. rewrite size_app. intros [->|H]; [lia|]. specialize (IH H). lia.
Qed.
Lemma size_ended x l : In x l -> size x <= size (comma_ended l).
Proof.
  intros H. unfold comma_ended. assert (K : In (x ++ [sym ","]) (map (fun x => x ++ [sym ","]) l)) by (apply in_map_iff; eauto).
  apply size_concat in K. rewrite size_app in K. lia.
Qed.
Lemma size_separated x l : In x l -> size x <= size (comma_separated l).
Proof.
  induction l as [|y l IH]; [easy|]. intros H. destruct l as [|z l].
  - destruct H as [->|[]]. cbn [comma_separated]. lia.
  - change (comma_separated (y :: z :: l)) with (y ++ [sym ","] ++ comma_separated (z :: l)). rewrite !size_app.
    destruct H as [->|H]; [lia|]. specialize (IH H). lia.
Qed.
Lemma call_in c l : In c l -> In (TGroup Paren (call_args c)) (chain l).
Proof.
  intros H. unfold chain. apply in_concat. exists (call_tokens c). split; [now apply in_map|]. cbn. tauto.
Qed.
Lemma last_in {A} (x : A) l r : In x (l ++ x :: r).
Proof. apply in_app_iff. cbn. tauto. Qed.

Lemma Forall2_impl_in {A B} (P Q : A -> B -> Prop) l m :
  (forall x y, In x l -> In y m -> P x y -> Q x y) -> Forall2 P l m -> Forall2 Q l m.
Proof.
  intros H K. induction K as [|x y l m Hx K IH]; constructor; [apply H; cbn; auto|]. apply IH. intros. apply H; cbn; auto.
Qed.

(** ** Fragments *)

Definition runs (code : list tt) (nd : node) : Prop := forall n, size code <= n -> run_node n code = Some nd.

Lemma fragment_runs codes ns n : forallb no_comma codes = true -> Forall2 runs codes ns ->
  size (fragment codes) <= n -> run_fragment n (fragment codes) = Some ns.
Proof.
  intros Hc H Hn. unfold fragment in *.
  assert (L : size [parens (comma_ended codes)] < size (abs_path ["leptos"; "prelude"; "View"; "new"] ++ [parens [parens (comma_ended codes)]]))
    by (apply (size_in Paren), last_in).
  assert (L2 : size (comma_ended codes) < size [parens (comma_ended codes)]) by (apply (size_in Paren); now left).
  destruct n as [|n]; [lia|]. cbn [run_fragment]. rewrite applied_ok.
  change (all (run_node n) (items (comma_ended codes)) = Some ns). rewrite (items_ended _ Hc). apply all_ok.
  apply Forall2_impl_in with (P := runs); [|exact H]. intros x y Hx _ R. apply R. apply size_ended in Hx. lia.
Qed.

Lemma nodes_no_comma l codes : nodes_code l codes -> forallb no_comma codes = true.
Proof. induction 1; auto. Qed.
Lemma rendered_runs ts nd : runs ts nd -> runs (rendered ts) nd.
Proof.
  intros H n Hn. unfold rendered in *.
  assert (L : size ts < size (abs_path ["leptos"; "prelude"; "IntoRender"; "into_render"] ++ [parens ts]))
    by (apply (size_in Paren), last_in).
  destruct n as [|n]; [lia|]. cbn [run_node]. rewrite applied_ok. apply H. lia.
Qed.
Lemma value_runs v ts : value_code v ts -> runs ts (NoText (val_of v)).
Proof.
  intros H n Hn. destruct n as [|n].
  - exfalso. pose proof (value_not_nil v ts H). destruct ts as [|t ts]; [easy|]. 
    change (size (t :: ts)) with (tt_size t + size ts) in Hn. pose proof (tt_size_pos t). lia.
  - cbn [run_node]. rewrite (run_value_ok v ts H).
    assert (E : applied ["leptos"; "prelude"; "IntoRender"; "into_render"] ts = None) by now destruct H.
    now rewrite E.
Qed.

(** ** Elements *)

Lemma head_runs t head : html_head t head -> exists sp n, made t sp n /\ run_head head = Some (sp, n) /\ end_ok head = true.
Proof.
  intros []; eexists; eexists; (split; [constructor|]); (split; [|reflexivity]); try reflexivity.
  unfold run_head, applied. cbn -[String.eqb]. now destruct (String.eqb (i_name i) "custom").
Qed.
Lemma head_step t head r n : html_head t head ->
  run_node (S n) (head ++ r) =
    let '(h, calls) := calls_of (head ++ r) in
    match run_head h, run_calls (run_node n) calls bare with
    | Some (sp, name), Some (lk, ns) => Some (NoElement sp name lk ns)
    | _, _ => None
    end.
Proof. now intros []. Qed.

Lemma Forall2_ex {A B C} (P : A -> B -> Prop) (Q : A -> C -> Prop) (R : B -> C -> Prop) l m :
  (forall x y, In x l -> P x y -> exists z, Q x z /\ R y z) -> Forall2 P l m ->
  exists k, Forall2 Q l k /\ Forall2 R m k.
Proof.
  intros H K. induction K as [|x y l m Hx K IH]; [exists []; split; constructor|].
  destruct IH as (k & K1 & K2); [intros; apply H; cbn; auto|]. destruct (H x y) as (z & Z1 & Z2); [cbn; auto|exact Hx|].
  exists (z :: k). split; now constructor.
Qed.
Lemma Forall2_map_l {A B C} (R : B -> C -> Prop) (f : A -> B) (g : A -> C) l :
  (forall x, R (f x) (g x)) -> Forall2 R (map f l) (map g l).
Proof. intros H. induction l; constructor; auto. Qed.

Lemma html_runs t sels attrs head kvs dirs codes ns :
  (kind_of t <> KSvg -> kind_of t <> KWeb -> forall a, In a (kvs_of attrs) -> ~ In (k_repr (kv_key a)) methods) ->
  html_head t head ->
  Forall2 (html_attr_call (kind_of t)) (kvs_of attrs) kvs ->
  Forall2 html_dir_call (dirs_of attrs) dirs ->
  Forall2 runs codes ns ->
  exists sp n kps dps, made t sp n /\
    Forall2 (kv_part (kind_of t)) (kvs_of attrs) kps /\ Forall2 dir_part (dirs_of attrs) dps /\
    runs (head ++ chain (kvs ++ dirs ++ map class_call (classes_of sels) ++ map id_call (ids_of sels)
                      ++ map spread_call (spreads_of attrs) ++ map child_call codes))
      (NoElement sp n
         (summary (kps ++ dps
                   ++ map (fun k => PaToggle (k_repr k) (Some (WBool true))) (classes_of sels)
                   ++ map (fun k => PaAttr "id" (WStr (k_repr k))) (ids_of sels)
                   ++ map PaMore (spreads_of attrs))) ns).
Proof.
  intros Hp Hh Hk Hd Hc. destruct (head_runs t head Hh) as (sp & n & M & Rh & Eh).
  destruct (Forall2_ex _ (kv_part (kind_of t)) runs_to _ _ (fun a c Ha H => run_attr_call _ a c (fun A B => Hp A B a Ha) H) Hk)
    as (kps & K1 & K2).
  destruct (Forall2_ex _ dir_part runs_to _ _ (fun d c _ H => run_dir_call d c H) Hd) as (dps & D1 & D2).
  exists sp, n, kps, dps. do 3 (split; [assumption|]). intros f Hf.
  set (cs := kvs ++ dirs ++ map class_call (classes_of sels) ++ map id_call (ids_of sels) ++ map spread_call (spreads_of attrs)).
  assert (E : kvs ++ dirs ++ map class_call (classes_of sels) ++ map id_call (ids_of sels)
                      ++ map spread_call (spreads_of attrs) ++ map child_call codes = cs ++ map child_call codes)
    by (unfold cs; now rewrite <- !app_assoc).
  rewrite E in *. destruct f as [|f].
  { exfalso. destruct Hh; cbn in Hf; lia. }
  rewrite (head_step t head _ f Hh), (calls_ok _ _ Eh), map_app.
  rewrite (run_parts (run_node f) cs (kps ++ dps
                   ++ map (fun k => PaToggle (k_repr k) (Some (WBool true))) (classes_of sels)
                   ++ map (fun k => PaAttr "id" (WStr (k_repr k))) (ids_of sels)
                   ++ map PaMore (spreads_of attrs))).
  - rewrite summary_ok, (run_kids (run_node f) codes ns), Rh; [reflexivity|].
    apply (Forall2_impl_in runs); [|exact Hc]. intros x y Hx _ R. apply R.
    assert (L : size x < size (chain (cs ++ map child_call codes))).
    { apply (size_in Paren). apply (call_in (child_call x)). apply in_app_iff. right. now apply in_map. }
    rewrite size_app in Hf. pose proof (proj2 (Nat.le_succ_l 0 (size head))). lia.
  - unfold cs. repeat (apply Forall2_app); try assumption.
    + apply Forall2_map_l, run_class_call.
    + apply Forall2_map_l, run_id_call.
    + apply Forall2_map_l, run_spread_call.
Qed.

(** ** Builders *)

Lemma before_build_ok l : before_build (map pair_of (l ++ [plain_call "build" []])) = Some (map pair_of l).
Proof.
  induction l as [|c l IH]; [reflexivity|]. rewrite map_app in *.
  change (map pair_of (c :: l) ++ map pair_of [plain_call "build" []]) with
    (pair_of c :: map pair_of l ++ map pair_of [plain_call "build" []]).
  destruct (map pair_of l ++ map pair_of [plain_call "build" []]) as [|d r] eqn:E; [now destruct (map pair_of l)|].
  destruct c as [i a].
  change (map_opt (cons (i, a)) (before_build (d :: r)) = Some ((i, a) :: map pair_of l)). now rewrite IH.
Qed.
Definition slot_runs (code : list tt) (s : slot) : Prop := forall n, size code <= n -> run_slot n code = Some s.
(** What a call of a builder gives. *)
Definition gives (c : call) (g : string * gift) : Prop :=
  forall n, size (call_args c) <= n -> run_gift (run_fragment n) (run_slot n) (pair_of c) = Some g.

Lemma value_no_slot v ts n : value_code v ts -> run_slot n ts = None.
Proof. intros H. destruct n as [|n]; [reflexivity|]. now destruct H. Qed.
Lemma prop_gives a c : prop_call a c -> gives c (prop_of a).
Proof.
  intros [a' i v [_ ->] Hv] n _. unfold run_gift, pair_of, prop_of. cbn [call_name call_args map_opt].
  rewrite (value_no_slot _ _ _ Hv), (run_value_ok _ _ Hv).
  assert (E : after_path ["into_vec"] (skipn 3 v) = None) by now destruct Hv. now rewrite E.
Qed.

Lemma clones_run ds cs r : Forall2 clone_code ds cs -> run_clones r = ([], r) ->
  run_clones (List.concat cs ++ r) = (map clone_of ds, r).
Proof.
  intros H Hr. induction H as [|d c ds cs Hc H IH]; [exact Hr|]. destruct Hc as [k i [_ ->]].
  cbn [List.concat map]. rewrite <- app_assoc. 
  change (run_clones (([word "let"; TIdent (Id true (snake_name (k_repr k))); sym "="; TIdent (Id true (snake_name (k_repr k))); sym "."; word "clone"; parens []; sym ";"]) ++ (List.concat cs ++ r)) = (clone_of (Directive (Id false "clone") (KKebab k) None None) :: map clone_of ds, r)).
  cbn -[String.eqb]. rewrite IH. cbn [i_name]. rewrite !String.eqb_refl. reflexivity.
Qed.

Lemma clones_move r : run_clones (word "move" :: r) = ([], word "move" :: r).
Proof.
  cbn [run_clones]. change (named "let" (word "move")) with false. cbn [andb].
  repeat match goal with |- match ?x with _ => _ end = _ => destruct x end; reflexivity.
Qed.

Lemma children_gives args attrs clones codes ns : Forall2 clone_code (clones_of attrs) clones ->
  forallb no_comma codes = true -> Forall2 runs codes ns ->
  Forall2 gives (children_calls args clones codes) (children_given args attrs ns).
Proof.
  intros Hc Hn H. unfold children_calls, children_given.
  destruct H as [|c n codes ns Hx H]; [constructor|]. constructor; [|constructor].
  assert (F : Forall2 runs (c :: codes) (n :: ns)) by now constructor.
  set (cs := c :: codes) in *. set (nds := n :: ns) in *. clearbody cs nds. clear Hx H.
  intros f Hf. unfold run_gift, pair_of, plain_call. cbn [call_name call_args braces] in *.
  unfold run_children. destruct args as [a|].
  - rewrite (clones_run _ _ _ Hc); [|apply clones_move].
    unfold word at 1. rewrite applied_not by reflexivity.
    change (named "move" (word "move")) with true. cbn [map_opt].
    assert (L : List.length (a ++ fragment cs) - 13 = List.length a).
    { rewrite app_length. change (List.length (fragment cs)) with 13. lia. }
    rewrite L, firstn_app, Nat.sub_diag, firstn_all, skipn_app, Nat.sub_diag, skipn_all. cbn [firstn skipn app].
    rewrite app_nil_r. cbn [named]. change (String.eqb (i_name (Id false "move")) "move") with true. cbv iota.
    rewrite (fragment_runs cs nds); [reflexivity|assumption|assumption|].
    assert (L2 : size (List.concat clones ++ word "move" :: a ++ fragment cs) < size [braces (List.concat clones ++ word "move" :: a ++ fragment cs)])
      by (apply (size_in Brace); now left).
    rewrite size_app in L2. change (size (word "move" :: a ++ fragment cs)) with (1 + size (a ++ fragment cs)) in L2. rewrite size_app in L2.
    unfold braces, plain_call in *. cbn [call_args] in Hf. lia.
  - rewrite (clones_run _ _ _ Hc); [|reflexivity]. rewrite applied_ok.
    change (named "move" (word "move") && is "|" (TPunct "|" Joint) && is "|" (TPunct "|" Alone)) with true. 
    cbn [bars app]. change (named "move" (word "move")) with true. cbn [is Ascii.eqb Bool.eqb andb].
    rewrite (fragment_runs cs nds); [reflexivity|assumption|assumption|].
    set (x := word "move" :: bars ++ fragment cs) in *.
    set (y := abs_path ["leptos"; "children"; "ToChildren"; "to_children"] ++ [parens x]) in *.
    assert (L : size (List.concat clones ++ y) < size [braces (List.concat clones ++ y)]) by (apply (size_in Brace); now left).
    assert (L2 : size x < size y) by (apply (size_in Paren), last_in).
    assert (L3 : size (fragment cs) <= size x) by (unfold x; change (size (fragment cs) <= 3 + size (fragment cs)); lia).
    rewrite size_app in L. unfold braces, plain_call in *. cbn [call_args] in Hf. lia.
Qed.

Lemma slot_no_comma e ts : slot_code e ts -> no_comma ts = true /\ ts <> [].
Proof. intros []. now split. Qed.
Lemma slots_no_comma l slots : slots_code l slots -> Forall (fun p => no_comma (snd p) = true /\ snd p <> []) slots.
Proof. induction 1; auto. constructor; [|assumption]. eapply slot_no_comma; eassumption. Qed.

Definition slot_pair (p : ident * list tt) (q : ident * slot) : Prop := fst p = fst q /\ slot_runs (snd p) (snd q).
Lemma called_runs slots ss i : Forall2 slot_pair slots ss -> Forall2 slot_runs (slots_named slots i) (called i ss).
Proof.
  unfold slots_named, called. induction 1 as [|[j c] [j' s] slots ss [E R] H IH]; [constructor|]. cbn in E. subst j'. cbn in *.
  destruct (ident_dec j i); cbn; [constructor|]; assumption.
Qed.
Lemma slot_gives slots ss : Forall (fun p => no_comma (snd p) = true /\ snd p <> []) slots ->
  Forall2 slot_pair slots ss -> forall i c, slot_call slots i c -> exists g, slot_given ss i g /\ gives c g.
Proof.
  intros Hc H i c [i' m Hm Hr]. exists (m, slot_gift (called i' ss)). split; [now constructor|].
  pose proof (called_runs slots ss i' H) as R.
  assert (N : Forall (fun x => no_comma x = true /\ x <> []) (slots_named slots i')).
  { unfold slots_named. apply Forall_forall. intros x Hx. apply in_map_iff in Hx as (p & <- & Hp). apply filter_In in Hp as [Hp _].
    now apply (proj1 (Forall_forall _ _) Hc). }
  intros n Hn. unfold run_gift, pair_of. cbn [call_name call_args i_name].
  destruct R as [|x y l l' Rx R].
  - destruct n; reflexivity.
  - destruct R as [|x' y' l l' Rx' R].
    + cbn [slot_arg] in *. rewrite (Rx n Hn). reflexivity.
    + set (l1 := x :: x' :: l) in *. set (l2 := y :: y' :: l') in *.
      assert (F : Forall2 slot_runs l1 l2) by (repeat constructor; assumption).
      change (slot_arg l1) with ([sym "<"; brackets [word "_"]; sym ">"] ++ dcolon ++
         [word "into_vec"; parens (abs_path ["std"; "boxed"; "Box"; "new"] ++ [parens [brackets (comma_separated l1)]])]) in *.
      change (slot_gift l2) with (GiSlots l2). clearbody l1 l2.
      set (b := abs_path ["std"; "boxed"; "Box"; "new"] ++ [parens [brackets (comma_separated l1)]]) in *.
      assert (S0 : run_slot n ([sym "<"; brackets [word "_"]; sym ">"] ++ dcolon ++ [word "into_vec"; parens b]) = None)
        by (destruct n; reflexivity).
      assert (S1 : after_path ["into_vec"] (skipn 3 ([sym "<"; brackets [word "_"]; sym ">"] ++ dcolon ++ [word "into_vec"; parens b])) =
                   Some [TGroup Paren b]) by reflexivity.
      assert (S2 : applied ["std"; "boxed"; "Box"; "new"] b = Some [TGroup Bracket (comma_separated l1)]) by apply applied_ok.
      rewrite S0, S1, S2.
      assert (L1 : size b < size ([sym "<"; brackets [word "_"]; sym ">"] ++ dcolon ++ [word "into_vec"; parens b]))
        by (apply (size_in Paren); cbn; tauto).
      assert (L2 : size [brackets (comma_separated l1)] < size b) by (apply (size_in Paren), last_in).
      assert (L3 : size (comma_separated l1) < size [brackets (comma_separated l1)]) by (apply (size_in Bracket); now left).
      rewrite items_separated.
      * rewrite (all_ok (run_slot n) l1 l2); [reflexivity|]. apply (Forall2_impl_in slot_runs); [|exact F].
        intros u w Hu _ Ru. apply Ru. apply size_separated in Hu. cbn [call_args] in Hn. lia.
      * apply forallb_forall. intros u Hu. now apply (proj1 (Forall_forall _ _) N).
      * apply Forall_forall. intros u Hu. now apply (proj1 (Forall_forall _ _) N).
Qed.

Lemma calls_give n calls gs : Forall2 gives calls gs -> size (chain calls) <= n ->
  all (run_gift (run_fragment n) (run_slot n)) (map pair_of calls) = Some gs.
Proof.
  intros H Hn. apply all_ok. revert Hn. induction H as [|c g calls gs Hc H IH]; intros Hn; [constructor|].
  change (chain (c :: calls)) with (call_tokens c ++ chain calls) in Hn. rewrite size_app in Hn.
  cbn [map]. constructor; [|apply IH; lia]. apply Hc.
  assert (L : size (call_args c) < size (call_tokens c)) by (apply (size_in Paren); cbn; tauto). lia.
Qed.

(** ** Components and slots *)

Lemma chain_app a b : chain (a ++ b) = chain a ++ chain b.
Proof. unfold chain. now rewrite map_app, concat_app. Qed.

Lemma component_runs path calls gs entries : Forall2 gives calls gs -> forallb no_comma entries = true ->
  runs (component_frame path calls entries) (NoComponent path gs (map run_item entries)).
Proof.
  intros Hg He n Hn. unfold component_frame in *.
  set (hd := sym "&" :: path ++ sym "," :: abs_path ["leptos"; "component"; "component_props_builder"] ++ [parens (sym "&" :: path)]).
  set (inner := sym "&" :: path ++ sym "," ::
              abs_path ["leptos"; "component"; "component_props_builder"] ++
              [parens (sym "&" :: path)] ++
              chain (calls ++ [plain_call "build" []])) in *.
  assert (Ei : inner = hd ++ chain (calls ++ [plain_call "build" []])).
  { unfold inner, hd. cbn -[chain]. rewrite <- app_assoc. reflexivity. }
  set (cv := abs_path ["leptos"; "component"; "component_view"] ++ [parens inner]) in *.
  set (body := abs_path ["leptos"; "component"; "component_view"] ++ [parens inner] ++
     chain [plain_call "add_any_attr" [parens (comma_ended entries)]]) in *.
  assert (Eb : body = cv ++ chain [plain_call "add_any_attr" [parens (comma_ended entries)]]) by reflexivity.
  assert (L1 : size body < size ([sym "#"; brackets [word "allow"; parens [word "unreachable_code"]]] ++
       abs_path ["leptos"; "prelude"; "View"; "new"] ++ [parens body])).
  { apply (size_in Paren). apply in_app_iff. right. apply last_in. }
  assert (L2 : size inner < size body) by (apply (size_in Paren); unfold body; apply in_app_iff; right; now left).
  assert (L3 : size (chain calls) <= size inner).
  { rewrite Ei, chain_app, !size_app. lia. }
  destruct n as [|[|n]]; [lia|lia|].
  change (run_node (S (S n)) ([sym "#"; brackets [word "allow"; parens [word "unreachable_code"]]] ++
       abs_path ["leptos"; "prelude"; "View"; "new"] ++ [parens body])) with (run_component (S n) body).
  cbn [run_component]. rewrite Eb, calls_ok by reflexivity. cbn [map pair_of plain_call call_name call_args].
  unfold parens at 1. change (String.eqb (i_name (Id false "add_any_attr")) "add_any_attr") with true. cbv iota.
  unfold cv. rewrite applied_ok, Ei, calls_ok.
  - rewrite before_build_ok. assert (P : run_component_path hd = Some path).
    { unfold run_component_path, hd.
      change (sym "&" :: path ++ sym "," :: abs_path ["leptos"; "component"; "component_props_builder"] ++ [parens (sym "&" :: path)])
        with ((sym "&" :: path) ++ (sym "," :: abs_path ["leptos"; "component"; "component_props_builder"]) ++ [parens (sym "&" :: path)]).
      rewrite app_assoc, rev_unit. unfold parens at 1. change (is "&" (sym "&") && is "&" (sym "&")) with true. cbv iota.
      rewrite after_tokens_ok. change (is "," (sym ",")) with true. cbv iota. now rewrite applied_ok. }
    rewrite P, (calls_give n calls gs Hg) by lia. rewrite (items_ended _ He). reflexivity.
  - unfold hd, end_ok. 
    change (sym "&" :: path ++ sym "," :: abs_path ["leptos"; "component"; "component_props_builder"] ++ [parens (sym "&" :: path)])
        with ((sym "&" :: path) ++ (sym "," :: abs_path ["leptos"; "component"; "component_props_builder"] ++ [parens (sym "&" :: path)])).
    rewrite rev_app_distr. reflexivity.
Qed.

Lemma slot_frame_runs path calls gs : Forall2 gives calls gs -> slot_runs (slot_frame path calls) (Slot path gs).
Proof.
  intros Hg n Hn. unfold slot_frame in *.
  set (hd := path ++ dcolon ++ [word "builder"; parens []]).
  set (inner := path ++ dcolon ++ [word "builder"; parens []] ++ chain (calls ++ [plain_call "build" []])) in *.
  assert (Ei : inner = hd ++ chain (calls ++ [plain_call "build" []])).
  { unfold inner, hd. now rewrite <- !app_assoc. }
  assert (L1 : size inner < size (abs_path ["std"; "convert"; "Into"; "into"] ++ [parens inner])) by (apply (size_in Paren), last_in).
  assert (L3 : size (chain calls) <= size inner).
  { rewrite Ei, chain_app, !size_app. lia. }
  destruct n as [|n]; [lia|]. cbn [run_slot]. rewrite applied_ok, Ei, calls_ok.
  - rewrite before_build_ok. assert (P : run_slot_path hd = Some path).
    { unfold run_slot_path, hd. rewrite rev_app_distr. cbn. now rewrite rev_involutive. }
    rewrite P, (calls_give n calls gs Hg) by lia. reflexivity.
  - unfold hd, end_ok. rewrite rev_app_distr. reflexivity.
Qed.

(** ** Trees *)


Lemma comma_free s : (forall sp, ~ In (TPunct "," sp) s) -> no_comma s = true.
Proof.
  intros H. unfold no_comma. induction s as [|t s IH]; [reflexivity|]. cbn [forallb]. rewrite IH; [|intros sp K; apply (H sp); now right].
  destruct t as [| |c sp|]; try reflexivity. cbn [is]. destruct (Ascii.eqb_spec "," c); [|reflexivity]. subst c. exfalso. apply (H sp). now left.
Qed.
Lemma spread_in s l : In (ASpread s) (entries_of l) -> In s (spreads_of l).
Proof.
  unfold entries_of, spreads_of. induction l as [|a l IH]; [easy|]. destruct a as [k|d|t]; cbn; [auto| |].
  - destruct (is_clone d); cbn; [auto|]. intros [E|E]; [discriminate|auto].
  - intros [E|E]; [injection E as ->; now left|right; auto].
Qed.

Section Trees.
Context (root : list child) (plain : forall b e, used root b e -> plain_element e).

Lemma code_runs :
  (forall e ts, element_code e ts -> used root false e -> exists n, means e n /\ runs ts n) /\
  (forall e ts, slot_code e ts -> used root true e -> exists s, slot_means e s /\ slot_runs ts s) /\
  (forall l codes, nodes_code l codes -> (forall e, In (CElement e) l -> used root false e) ->
     exists ns, nodes_mean l ns /\ Forall2 runs codes ns) /\
  (forall l slots, slots_code l slots -> (forall e, In (CSlot e) l -> used root true e) ->
     exists ss, slots_mean l ss /\ Forall2 slot_pair slots ss).
Proof.
  apply code_mutind.
  - intros t sels attrs args children head kvs dirs codes Hh Hk Hd Hn IH U.
    destruct IH as (ns & M & R). { intros e He. eapply used_child; [exact U|exact He]. }
    destruct (html_runs t sels attrs head kvs dirs codes ns) as (sp & n & kps & dps & A & B & C & D); try assumption.
    + pose proof (plain _ _ U) as P. unfold plain_element in P. cbn [el_tag el_attrs] in P.
      intros K1 K2. destruct t; cbn in K1, K2; try congruence; try exact P. now inversion Hh.
    + eexists. split; [|exact D]. econstructor; eassumption.
  - intros p sels attrs args children path props entries clones codes slots scalls Hp Hk He Hc Hn IHn Hs IHs Hsc U.
    destruct IHn as (ns & M & R). { intros e Hi. eapply used_child; [exact U|exact Hi]. }
    destruct IHs as (ss & Ms & Rs). { intros e Hi. eapply used_slot; [exact U|reflexivity|exact Hi]. }
    destruct Hsc as [order calls Hnd Hord Hcalls].
    destruct (Forall2_ex _ (slot_given ss) gives _ _ (fun i c _ H => slot_gives slots ss (slots_no_comma _ _ Hs) Rs i c H) Hcalls)
      as (gs & G1 & G2).
    destruct (Forall2_ex _ item_part (fun ts p => run_item ts = p) _ _ (fun a ts _ H => run_entry a ts H) He) as (ips & I1 & I2).
    eexists. split.
    + econstructor; [exact Hp|exact I1|exact M|exact Ms|]. econstructor; [exact Hnd| |exact G1].
      intros i. rewrite (Hord i). replace (map fst ss) with (map fst slots); [reflexivity|].
      clear - Rs. induction Rs as [|x y l m [E _] Rs IH]; [reflexivity|]. cbn. now rewrite E, IH.
    + destruct (selectors_run sels) as [S1 S2].
      replace (selector_parts sels ++ ips) with (map run_item (selector_entries sels ++ entries)).
      2:{ rewrite map_app, S1. f_equal. clear - I2. induction I2 as [|x y l m E I2 IH]; [reflexivity|]. cbn. now rewrite E, IH. }
      apply component_runs.
      * apply Forall2_app; [|apply Forall2_app; [|exact G2]].
        -- clear - Hk. induction Hk as [|a c l m H Hk IH]; constructor; [now apply prop_gives|exact IH].
        -- apply children_gives; [exact Hc|eapply nodes_no_comma; exact Hn|exact R].
      * rewrite forallb_app, S2. cbn. pose proof (plain _ _ U) as P. unfold plain_element in P. cbn [el_tag el_attrs] in P.
        assert (Q : forall s, In (ASpread s) (entries_of attrs) -> no_comma s = true).
        { intros s Hi. apply comma_free. intros sp. apply P. now apply spread_in. }
        clear - He Q. induction He as [|a ts l m H He IH]; [reflexivity|]. cbn. apply andb_true_intro. split.
        -- eapply entry_comma; [exact H|]. intros s ->. apply Q. now left.
        -- apply IH. intros s Hi. apply Q. now right.
  - intros p attrs args children path props clones codes slots scalls Hp Hk He Hc Hn IHn Hs _ _ U.
    destruct IHn as (ns & M & R). { intros e Hi. eapply used_child; [exact U|exact Hi]. }
    eexists. split; [econstructor; [exact Hp|exact M]|]. apply slot_frame_runs. apply Forall2_app.
    + clear - Hk. induction Hk as [|a c l m H Hk IH]; constructor; [now apply prop_gives|exact IH].
    + apply children_gives; [exact Hc|eapply nodes_no_comma; exact Hn|exact R].
  - intros _. exists []. split; constructor.
  - intros v ts l codes Hv _ IH U. destruct IH as (ns & M & R). { intros e Hi. apply U. now right. }
    eexists. split; [constructor; exact M|]. constructor; [|exact R]. now apply rendered_runs, value_runs.
  - intros e ts l codes _ IHe _ IH U. destruct IH as (ns & M & R). { intros e' Hi. apply U. now right. }
    destruct IHe as (n & M1 & R1). { apply U. now left. }
    eexists. split; [constructor; eassumption|]. constructor; [|exact R]. now apply rendered_runs.
  - intros e l codes _ IH U. destruct IH as (ns & M & R). { intros e' Hi. apply U. now right. }
    eexists. split; [constructor; eassumption|exact R].
  - intros _. exists []. split; constructor.
  - intros v l slots _ IH U. destruct IH as (ns & M & R). { intros e' Hi. apply U. now right. }
    eexists. split; [constructor; eassumption|exact R].
  - intros v l slots _ IH U. destruct IH as (ns & M & R). { intros e' Hi. apply U. now right. }
    eexists. split; [constructor; eassumption|exact R].
  - intros e i ts l slots Ht _ IHe _ IH U. destruct IH as (ns & M & R). { intros e' Hi. apply U. now right. }
    destruct IHe as (s & M1 & R1). { apply U. now left. }
    eexists. split; [econstructor; eassumption|]. constructor; [now split|exact R].
Qed.
End Trees.

Theorem root_runs cs out : root_code cs out -> (forall b e, used cs b e -> plain_element e) ->
  exists n, run_view out = Some n /\ view_means cs n.
Proof.
  intros H P. destruct H as [c code Hs Hn|cs codes Hl Hs Hn].
  - destruct (proj1 (proj2 (proj2 (code_runs [c] P))) _ _ Hn) as (ns & M & R). { intros e He. now constructor. }
    inversion R as [|x n l m Rn R' E1 E2]. subst. inversion R'. subst.
    exists n. split; [|now constructor]. unfold run_view, root_frame, braces, brackets. cbn [app sym]. apply Rn. 
    assert (L : size ([sym "#"; brackets [word "allow"; parens [word "unused_braces"]]] ++ code) <
                size [braces ([sym "#"; brackets [word "allow"; parens [word "unused_braces"]]] ++ code)])
      by (apply (size_in Brace); now left). rewrite size_app in L. unfold braces, brackets, sym in *. cbn [app] in L. lia.
  - destruct (proj1 (proj2 (proj2 (code_runs cs P))) _ _ Hn) as (ns & M & R). { intros e He. now constructor. }
    exists (NoMany ns). split; [|now constructor].
    assert (L : size ([sym "#"; brackets [word "allow"; parens [word "unused_braces"]]] ++ fragment codes) <
                size [braces ([sym "#"; brackets [word "allow"; parens [word "unused_braces"]]] ++ fragment codes)])
      by (apply (size_in Brace); now left). rewrite size_app in L.
    change (run_view (root_frame (fragment codes))) with (map_opt NoMany (run_fragment (size (root_frame (fragment codes))) (fragment codes))).
    rewrite (fragment_runs codes ns); [reflexivity|eapply nodes_no_comma; exact Hn|exact R|]. unfold root_frame. lia.
Qed.
