(** Running emitted code: tokens, values, calls on elements, items. *)
From Verif Require Import Ast SpecStr SpecGrammar SpecOut SpecRun SpecView EqualFacts.
From Coq Require Import Lia.
Open Scope string_scope.
Open Scope list_scope.

(** ** Tokens *)

Lemma after_path_ok l r : after_path l (abs_path l ++ r) = Some r.
Proof. induction l as [|s l IH]; [reflexivity|]. cbn. now rewrite String.eqb_refl. Qed.
Lemma applied_ok f args : applied f (abs_path f ++ [parens args]) = Some args.
Proof. unfold applied. now rewrite after_path_ok. Qed.
Lemma after_path_not s l t r : is ":" t = false -> after_path (s :: l) (t :: r) = None.
Proof. intros H. cbn. destruct r as [|? []]; try reflexivity. now rewrite H. Qed.
Lemma applied_not s l t r : is ":" t = false -> applied (s :: l) (t :: r) = None.
Proof. intros H. unfold applied. now rewrite after_path_not. Qed.

Definition pair_of (c : call) : ident * list tt := (call_name c, call_args c).
(** Not the end of a call of a method. *)
Definition end_ok (h : list tt) : bool :=
  match rev h with TGroup Paren _ :: TIdent _ :: t :: _ => negb (is "." t) | _ => true end.
Lemma peel_stop r acc : end_ok (rev r) = true -> peel r acc = (rev r, acc).
Proof.
  unfold end_ok. rewrite rev_involutive. intros H.
  destruct r as [|[| | |[] args] [|[i| | |] [|t r]]]; try reflexivity. cbn [peel].
  apply negb_true_iff in H. now rewrite H.
Qed.
Lemma peel_chain l r acc : end_ok (rev r) = true ->
  peel (rev (chain l) ++ r) acc = (rev r, map pair_of l ++ acc).
Proof.
  revert r acc. induction l as [|c l IH] using rev_ind; intros r acc H; [now apply peel_stop|].
  unfold chain. rewrite map_app, concat_app, rev_app_distr. cbn [map List.concat].
  change (rev (call_tokens c ++ []) ) with [parens (call_args c); TIdent (call_name c); sym "."].
  cbn [app peel parens is sym]. fold (chain l). cbn. rewrite IH by exact H. now rewrite map_app, <- app_assoc.
Qed.
Lemma calls_ok h l : end_ok h = true -> calls_of (h ++ chain l) = (h, map pair_of l).
Proof.
  intros H. unfold calls_of. rewrite rev_app_distr, peel_chain by now rewrite rev_involutive.
  now rewrite rev_involutive, app_nil_r.
Qed.

Definition no_comma (ts : list tt) : bool := forallb (fun t => negb (is "," t)) ts.
Lemma no_comma_app a b : no_comma (a ++ b) = no_comma a && no_comma b.
Proof. apply forallb_app. Qed.
Lemma no_comma_path l : no_comma (abs_path l) = true.
Proof. induction l; [reflexivity|]. assumption. Qed.
Lemma at_comma_ok a b sp : no_comma a = true -> at_comma (a ++ TPunct "," sp :: b) = Some (a, b).
Proof.
  induction a as [|t a IH]; [reflexivity|]. cbn [no_comma forallb app at_comma]. intros H. apply andb_prop in H as [H1 H2].
  apply negb_true_iff in H1. rewrite H1, IH by exact H2. reflexivity.
Qed.
Lemma items_cons a b sp : no_comma a = true -> items (a ++ TPunct "," sp :: b) = a :: items b.
Proof.
  induction a as [|t a IH]; [reflexivity|]. cbn [no_comma forallb app items]. intros H. apply andb_prop in H as [H1 H2].
  apply negb_true_iff in H1. rewrite H1, IH by exact H2. reflexivity.
Qed.
Lemma items_last a : no_comma a = true -> a <> [] -> items a = [a].
Proof.
  induction a as [|t a IH]; [easy|]. cbn [no_comma forallb items]. intros H _. apply andb_prop in H as [H1 H2].
  apply negb_true_iff in H1. rewrite H1. destruct a; [reflexivity|]. now rewrite IH by easy.
Qed.
Lemma items_ended l : forallb no_comma l = true -> items (comma_ended l) = l.
Proof.
  induction l as [|x l IH]; [reflexivity|]. cbn [forallb]. intros H. apply andb_prop in H as [H1 H2].
  unfold comma_ended. cbn [map List.concat]. rewrite <- app_assoc.
  change (items (x ++ TPunct "," Alone :: comma_ended l) = x :: l).
  rewrite items_cons by exact H1. f_equal. now apply IH.
Qed.
Lemma items_separated l : forallb no_comma l = true -> Forall (fun x => x <> []) l -> items (comma_separated l) = l.
Proof.
  induction l as [|x l IH]; [reflexivity|]. cbn [forallb]. intros H K. apply andb_prop in H as [H1 H2].
  apply Forall_cons_iff in K as [K1 K2]. destruct l as [|y l]; [now apply items_last|].
  change (comma_separated (x :: y :: l)) with (x ++ sym "," :: comma_separated (y :: l)).
  unfold sym at 1. rewrite items_cons by exact H1. f_equal. now apply IH.
Qed.

Lemma all_ok {A B} (f : A -> option B) l m : Forall2 (fun x y => f x = Some y) l m -> all f l = Some m.
Proof. induction 1; [reflexivity|]. cbn. rewrite H. cbn in IHForall2. now rewrite IHForall2. Qed.

Fixpoint same_refl (t : tt) : same_tt t t = true.
Proof.
  destruct t as [i|c sp|k s|d l]; cbn.
  - now rewrite String.eqb_refl, eqb_reflx.
  - apply Ascii.eqb_refl.
  - rewrite String.eqb_refl. now destruct k.
  - apply andb_true_intro. split; [now destruct d|]. induction l as [|x l IH]; [reflexivity|].
    apply andb_true_intro. split; [apply same_refl|exact IH].
Qed.
Lemma after_tokens_ok a r : after_tokens a (a ++ r) = Some r.
Proof. induction a as [|t a IH]; [now destruct r|]. cbn. now rewrite same_refl. Qed.

(** ** Values *)

Lemma run_value_ok v ts : value_code v ts -> run_value ts = Some (val_of v).
Proof. intros H. destruct H as [[]| | | | |]; reflexivity. Qed.
Lemma value_not_nil v ts : value_code v ts -> ts <> [].
Proof. now intros []. Qed.
Lemma value_no_comma v ts : value_code v ts -> no_comma ts = true.
Proof. now intros []. Qed.
Lemma run_opt_ok v ts : opt_value_code v ts -> run_opt ts = Some (option_map val_of v).
Proof.
  intros [|v' ts' H]; [reflexivity|]. unfold run_opt. rewrite (run_value_ok v' ts' H). destruct ts'; [now destruct (value_not_nil _ _ H)|reflexivity].
Qed.
Lemma run_or_true_ok v ts : value_or_true_code v ts -> run_value ts = Some (or_true_val v).
Proof. intros []; [reflexivity|]. now apply run_value_ok. Qed.
Lemma or_true_not_nil v ts : value_or_true_code v ts -> ts <> [].
Proof. intros [|v' ts' H]; [easy|]. now apply (value_not_nil v'). Qed.
Lemma run_pair_ok s v ts : opt_value_code v ts -> run_pair (str s :: sym "," :: ts) = Some (s, option_map val_of v).
Proof. intros H. unfold run_pair. cbn [at_comma str sym is Ascii.eqb]. cbn. now rewrite (run_opt_ok v ts H). Qed.
Lemma run_pair_full_ok s v ts : value_or_true_code v ts ->
  run_pair_full (str s :: sym "," :: ts) = Some (s, or_true_val v).
Proof.
  intros H. unfold run_pair_full, run_pair. cbn. unfold run_opt. rewrite (run_or_true_ok v ts H).
  destruct ts; [now destruct (or_true_not_nil _ _ H)|reflexivity].
Qed.

Lemma run_name k : run_value [name_block k] = Some (WStr (k_repr k)).
Proof.
  unfold name_block. cbn [run_value braces]. unfold code_value.
  enough (H : forall n, trivial_block (List.concat (repeat [word "let"; word "__x"; sym "="; parens []; sym ";"] n) ++ [str (k_repr k)]) = Some (k_repr k))
    by now rewrite H.
  induction n; [reflexivity|]. assumption.
Qed.

(** ** Names *)

Lemma snake_no_dash s : ~ has_dash s -> snake_name s = s.
Proof.
  unfold has_dash, snake_name, chars, unchars. intros H. transitivity (string_of_list_ascii (list_ascii_of_string s)); [|apply string_of_list_ascii_of_string].
  f_equal. rewrite <- (map_id (list_ascii_of_string s)) at 2. apply map_ext_in. intros c Hc.
  destruct (ascii_dec c "-"); congruence.
Qed.
Lemma dashed_snake s : dashed (snake_name s) = dashed s.
Proof.
  unfold dashed, snake_name, unchars, chars. rewrite list_ascii_of_string_of_list_ascii, map_map. f_equal.
  apply map_ext. intros c. destruct (ascii_dec c "-") as [->|]; reflexivity.
Qed.
Lemma prefix_rest p s : String.prefix p s = true -> exists r, s = (p ++ r)%string.
Proof.
  revert s. induction p as [|c p IH]; intros [|d s]; cbn; try discriminate; [now exists ""|now exists (String d s)|].
  destruct (ascii_dec c d) as [->|]; [|discriminate]. intros H. destruct (IH s H) as (r & ->). now exists r.
Qed.
(** The name of a method: the key itself, or one that starts with [aria_]. *)
Lemma typed_name s : ~ custom_name s -> snake_name s = s \/ exists r, snake_name s = ("aria_" ++ r)%string.
Proof.
  intros H. unfold custom_name in H.
  destruct (in_dec ascii_dec "-"%char (chars s)) as [K|K]; [|left; now apply snake_no_dash].
  right. destruct (String.prefix "aria-" s) eqn:P.
  - destruct (prefix_rest _ _ P) as (r & ->). now exists (snake_name r).
  - exfalso. apply H. split; [exact K|]. intros (r & ->). cbn in P. now destruct r.
Qed.

(** ** Calls on elements *)

Definition runs_to (c : call) (p : part) : Prop :=
  String.eqb (i_name (call_name c)) "child" = false /\ run_call (i_name (call_name c)) (call_args c) = Some p.

Lemma tuple_value v ts {A} (f g : list tt -> option A) : value_code v ts -> tuple_or ts f g = g ts.
Proof. now intros []. Qed.


Lemma call_name_raw i v s : i_name i = s -> runs_to (Call i v) = runs_to (Call (Id true s) v).
Proof. destruct i. cbn. now intros ->. Qed.

Lemma run_attr_call k a c : (k <> KSvg -> k <> KWeb -> ~ In (k_repr (kv_key a)) methods) ->
  html_attr_call k a c -> exists p, kv_part k a p /\ runs_to c p.
Proof.
  intros Hm H. revert Hm.
  destruct H as [[k' v'] v Hr Hv|[k' v'] v H1 H2 H3 Hk Hv|[k' v'] v i H1 Hk Hi Hv]; cbn [kv_key kv_value] in *; intros Hm.
  - exists (PaRef (val_of v')). split; [now constructor|]. split; [reflexivity|]. cbn. now rewrite (run_value_ok _ _ Hv).
  - exists (PaAttr (k_repr k') (val_of v')). split; [apply kp_verbatim; [cbn; intuition congruence|exact Hk]|].
    split; [reflexivity|]. cbn. now rewrite (run_value_ok _ _ Hv).
  - destruct Hi as [_ ->].
    destruct (string_dec (k_repr k') "class") as [E|N1].
    { exists (PaClass (val_of v')). split; [now constructor|]. unfold runs_to. cbn [call_name i_name call_args]. rewrite E.
      split; [reflexivity|]. cbn. rewrite (tuple_value _ _ _ _ Hv). now rewrite (run_value_ok _ _ Hv). }
    destruct (string_dec (k_repr k') "style") as [E|N2].
    { exists (PaStyle (val_of v')). split; [now constructor|]. unfold runs_to. cbn [call_name i_name call_args]. rewrite E.
      split; [reflexivity|]. cbn. rewrite (tuple_value _ _ _ _ Hv). now rewrite (run_value_ok _ _ Hv). }
    destruct Hk as [|[|(K1 & K2 & K3)]]; [contradiction|contradiction|]. specialize (Hm K1 K2).
    destruct (string_dec (k_repr k') "inner_html") as [E|N3].
    { exists (PaHtml (val_of v')). split; [now constructor|]. unfold runs_to. cbn [call_name i_name call_args]. rewrite E.
      split; [reflexivity|]. cbn. now rewrite (run_value_ok _ _ Hv). }
    exists (PaAttr (dashed (k_repr k')) (val_of v')). split; [apply kp_known; auto; cbn; intuition congruence|].
    unfold runs_to. cbn [call_name i_name call_args]. rewrite <- dashed_snake.
    destruct (typed_name _ K3) as [E|(r & E)].
    + rewrite E. assert (L : forall x, In x ("class" :: "style" :: "inner_html" :: methods) -> String.eqb (k_repr k') x = false).
      { intros x [<-|[<-|[<-|Hx]]]; apply String.eqb_neq; auto. intros <-. contradiction. }
      split; [apply L; cbn; tauto|]. unfold run_call. rewrite !L by (cbn; tauto). now rewrite (run_value_ok _ _ Hv).
    + rewrite E. split; [reflexivity|]. unfold run_call. cbn. now rewrite (run_value_ok _ _ Hv).
Qed.

Lemma run_event_ok k m ev : event_code k m ev -> exists k', k = KKebab k' /\
  run_event ev = Some (snake_name (k_repr k'), is_none m) /\ no_comma ev = true.
Proof. intros [k' i [_ ->]|k' i [_ ->]]; exists k'; repeat split.
  unfold run_event, applied. cbn -[String.eqb]. now destruct (String.eqb (snake_name (k_repr k')) "undelegated").
Qed.
Lemma run_on_ok k m v ev ts : event_code k m ev -> opt_value_code v ts -> exists k', k = KKebab k' /\
  run_on (ev ++ sym "," :: ts) = Some (PaOn (snake_name (k_repr k')) (is_none m) (option_map val_of v)).
Proof.
  intros He Hv. destruct (run_event_ok k m ev He) as (k' & -> & E & N). exists k'. split; [reflexivity|].
  unfold run_on. unfold sym at 1. rewrite at_comma_ok by exact N. now rewrite E, (run_opt_ok v ts Hv).
Qed.
Lemma run_use_ok k v ts : use_code k v ts -> exists k', k = KKebab k' /\
  run_use ts = Some (PaUse (snake_name (k_repr k')) (option_map val_of v)).
Proof.
  intros [k' i [_ ->]|k' i v' ts' [_ ->] Hv]; exists k'; (split; [reflexivity|]); [reflexivity|].
  cbn. now rewrite (run_value_ok _ _ Hv).
Qed.

Lemma run_dir_call d c : html_dir_call d c -> exists p, dir_part d p /\ runs_to c p.
Proof.
  intros [n k v ts Hn Hv|k v ts Hv|k m v ev ts He Hv|k v ts Hu].
  - destruct Hn as [-> | ->]; (eexists; split; [constructor|]); (split; [reflexivity|]);
      unfold plain_call, run_call; cbn [i_name call_name call_args String.eqb Ascii.eqb Bool.eqb tuple_or parens];
      now rewrite (run_pair_ok _ _ _ Hv).
  - eexists. split; [constructor|]. split; [reflexivity|]. unfold run_call. cbn -[run_pair]. now rewrite (run_pair_ok _ _ _ Hv).
  - destruct (run_on_ok k m v ev ts He Hv) as (k' & -> & E). eexists. split; [constructor|]. split; [reflexivity|].
    exact E.
  - destruct (run_use_ok k v ts Hu) as (k' & -> & E). eexists. split; [constructor|]. split; [reflexivity|]. exact E.
Qed.
Lemma run_class_call k : runs_to (class_call k) (PaToggle (k_repr k) (Some (WBool true))).
Proof.
  split; [reflexivity|]. unfold class_call, plain_call, run_call. cbn [i_name call_name call_args String.eqb Ascii.eqb Bool.eqb tuple_or parens].
  unfold run_pair. cbn [at_comma name_block braces is sym Ascii.eqb Bool.eqb]. fold (name_block k).
  change (braces (List.concat (repeat [word "let"; word "__x"; sym "="; parens []; sym ";"] (k_spans k)) ++ [str (k_repr k)])) with (name_block k).
  now rewrite run_name.
Qed.
Lemma run_id_call k : runs_to (id_call k) (PaAttr "id" (WStr (k_repr k))).
Proof.
  split; [reflexivity|]. unfold id_call, plain_call, run_call. cbn [i_name call_name call_args].
  change (map_opt (PaAttr "id") (run_value [name_block k]) = Some (PaAttr "id" (WStr (k_repr k)))). now rewrite run_name.
Qed.
Lemma run_spread_call ts : runs_to (spread_call ts) (PaMore ts).
Proof. now split. Qed.

Lemma run_parts child cs ps r acc : Forall2 runs_to cs ps ->
  run_calls child (map pair_of cs ++ r) acc = run_calls child r (fold_left add ps acc).
Proof.
  intros H. revert acc. induction H as [|c p cs ps [H1 H2] _ IH]; intros acc; [reflexivity|].
  cbn [map app run_calls fold_left pair_of]. rewrite H1, H2. apply IH.
Qed.
Lemma run_kids child codes ns acc : Forall2 (fun ts n => child ts = Some n) codes ns ->
  run_calls child (map pair_of (map child_call codes)) acc = Some (acc, ns).
Proof.
  induction 1 as [|ts n codes ns H _ IH]; [reflexivity|]. cbn in *. now rewrite H, IH.
Qed.
Lemma summary_last ps p : summary (ps ++ [p]) = add (summary ps) p.
Proof. unfold summary, add. rewrite !flat_map_app. destruct p; cbn; now rewrite ?app_nil_r. Qed.
Lemma summary_ok ps : fold_left add ps bare = summary ps.
Proof.
  induction ps as [|p ps IH] using rev_ind; [reflexivity|]. rewrite fold_left_app, IH, summary_last. reflexivity.
Qed.

(** ** Items of components *)

Lemma not_custom n args : applied (html ["attribute"; "custom"; "custom_attribute"])
  (tachys_html ["attribute"] ++ dcolon ++ [TIdent (Id true n); parens args]) = None.
Proof. unfold applied. cbn -[String.eqb]. now destruct (String.eqb n "custom"). Qed.
Lemma run_entry a ts : entry_code a ts -> exists p, item_part a p /\ run_item ts = p.
Proof.
  intros [ts'|n k m v ts' Hn Hv|n c m v ts' Hn Hv|k m v ts' Hk Hv|k i m v ts' N1 N2 N3 [_ ->] Hv|k i m v ts' [_ ->] Hv|k m v ev ts' He Hv|k v ts' Hu].
  - eexists. split; [constructor|reflexivity].
  - destruct Hn as [-> | ->]; (eexists; split; [constructor|]); unfold run_item; cbn -[run_pair_full];
      now rewrite (run_pair_full_ok _ _ _ Hv).
  - destruct Hn as [-> | ->].
    + eexists. split; [now apply ip_attr_class|]. unfold run_item. cbn -[run_pair_full run_value].
      rewrite (run_or_true_ok _ _ Hv). destruct Hv as [|v ts' []]; reflexivity.
    + eexists. split; [now apply ip_attr_style|]. unfold run_item. cbn -[run_pair_full run_value].
      rewrite (run_or_true_ok _ _ Hv). destruct Hv as [|v ts' []]; reflexivity.
  - eexists. split; [now apply ip_attr_verbatim|]. unfold run_item. cbn -[run_pair_full run_value].
    now rewrite (run_pair_full_ok _ _ _ Hv).
  - eexists. split; [apply ip_attr; auto; cbn; intuition congruence|]. unfold run_item.
    rewrite not_custom. cbn -[run_value dashed]. rewrite (run_or_true_ok _ _ Hv). cbn [map_opt or_else]. now rewrite dashed_snake.
  - eexists. split; [constructor|]. unfold run_item. cbn -[run_value]. now rewrite (run_or_true_ok _ _ Hv).
  - destruct (run_on_ok k m v ev ts' He Hv) as (k' & -> & E). eexists. split; [constructor|]. unfold run_item. cbn -[run_on].
    now rewrite E.
  - destruct (run_use_ok k v ts' Hu) as (k' & -> & E). eexists. split; [constructor|]. unfold run_item. cbn -[run_use].
    now rewrite E.
Qed.
Lemma entry_comma a ts : entry_code a ts -> (forall s, a = ASpread s -> no_comma s = true) -> no_comma ts = true.
Proof.
  intros H K. destruct H; try reflexivity; try (destruct H as [-> | ->]; reflexivity). now apply K.
Qed.
Lemma selectors_run sels : map run_item (selector_entries sels) = selector_parts sels /\
  forallb no_comma (selector_entries sels) = true.
Proof.
  unfold selector_entries, selector_parts. rewrite map_app, map_map. split.
  - f_equal. unfold id_entries. now destruct (ids_of sels).
  - rewrite forallb_app. apply andb_true_intro. split; [now induction (classes_of sels)|]. unfold id_entries. now destruct (ids_of sels).
Qed.
