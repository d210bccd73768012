(** An upper bound for the steps of the expander. *)
From Verif Require Export WorkXFacts SpecGrammar.
From Verif Require Import ExpandFacts2 WorkBound.
From Coq Require Import Lia Arith Permutation.
Open Scope list_scope.

(** [m] takes at most [n] steps, and what it returns has [Q]. *)
Definition costs {A} (m : WX A) (n : nat) (Q : A -> Prop) : Prop :=
  fst m <= n /\ forall a, x_out (snd m) = XRet a -> Q a.

Lemma costs_le {A} (m : WX A) n n' (Q Q' : A -> Prop) : costs m n Q -> n <= n' -> (forall a, Q a -> Q' a) -> costs m n' Q'.
Proof. intros [H1 H2] H3 H4. split; [lia|]. intros a H. apply H4, H2, H. Qed.
Lemma costs_bind {A B} (m : WX A) (f : A -> WX B) n N P Q :
  costs m n P -> n <= N -> (forall a, P a -> costs (f a) (N - n) Q) -> costs (x_bind m f) N Q.
Proof.
  intros [H1 H2] Hn Hf. destruct m as [k [[a| |w] d]]; cbn in *.
  - destruct (Hf a (H2 a eq_refl)) as [H3 H4]. split; cbn; [lia|apply H4].
  - split; cbn; [lia|discriminate].
  - split; cbn; [lia|discriminate].
Qed.
Lemma costs_ret {A} (a : A) N (Q : A -> Prop) : Q a -> costs (x_ret a) N Q.
Proof. intros H. split; cbn; [lia|]. intros b Hb. now injection Hb as <-. Qed.
Lemma costs_pay n N (Q : unit -> Prop) : n <= N -> Q Datatypes.tt -> costs (x_pay n) N Q.
Proof. intros H HQ. split; cbn; [lia|]. now intros []. Qed.
Lemma costs_pay_then {B} n N (f : unit -> WX B) Q : n <= N -> costs (f Datatypes.tt) (N - n) Q -> costs (x_bind (x_pay n) f) N Q.
Proof. intros H Hf. eapply costs_bind with (P := fun _ => True) (n := n); [apply costs_pay; auto|auto|]. now intros []. Qed.
Lemma costs_extend_then {B} ts N (f : unit -> WX B) Q :
  S (List.length ts) <= N -> costs (f Datatypes.tt) (N - S (List.length ts)) Q -> costs (x_bind (x_extend ts) f) N Q.
Proof. apply costs_pay_then. Qed.
Lemma costs_emit d N (Q : unit -> Prop) : 1 <= N -> Q Datatypes.tt -> costs (x_emit d) N Q.
Proof. intros H HQ. split; cbn; [lia|]. now intros []. Qed.
Lemma costs_emit_then {B} d N (f : unit -> WX B) Q : 1 <= N -> costs (f Datatypes.tt) (N - 1) Q -> costs (x_bind (x_emit d) f) N Q.
Proof. intros H Hf. eapply costs_bind with (P := fun _ => True) (n := 1); [apply costs_emit; auto|auto|]. now intros []. Qed.
Lemma costs_panic {A} w N (Q : A -> Prop) : 1 <= N -> costs (x_panic w) N Q.
Proof. intros H. split; cbn; [lia|discriminate]. Qed.
Lemma costs_abort {A} d N (Q : A -> Prop) : 1 <= N -> costs (x_abort d) N Q.
Proof. intros H. split; cbn; [lia|discriminate]. Qed.
Lemma costs_quote l N (Q : list tt -> Prop) : S (quote_steps l) <= N -> Q (quote_tokens l) -> costs (quote l) N Q.
Proof. intros H HQ. split; cbn; [lia|]. intros a Ha. now injection Ha as <-. Qed.

(** ** Templates *)

Lemma steps_app a b : quote_steps (a ++ b) = quote_steps a + quote_steps b.
Proof. induction a as [|p a IH]; [reflexivity|]. unfold quote_steps in *. cbn [app fold_right]. rewrite IH. lia. Qed.
Lemma steps_fixed ts : quote_steps (fixed ts) = weight ts.
Proof. induction ts as [|t ts IH]; [reflexivity|]. unfold quote_steps, fixed, weight in *. cbn [map fold_right piece_steps]. now rewrite IH. Qed.
Lemma steps_cons p l : quote_steps (p :: l) = piece_steps p + quote_steps l. Proof. reflexivity. Qed.
Lemma steps_nil : quote_steps [] = 0. Proof. reflexivity. Qed.
Lemma steps_grp d l : piece_steps (Grp d l) = S (quote_steps l). Proof. reflexivity. Qed.
Lemma steps_tok t : piece_steps (Tok t) = weigh t. Proof. reflexivity. Qed.
Lemma steps_splice ts : piece_steps (Splice ts) = S (List.length ts). Proof. reflexivity. Qed.
Lemma steps_method i l : quote_steps (q_method i l) = 3 + String.length (i_name i) + quote_steps l.
Proof. unfold q_method. rewrite !steps_cons, !steps_tok, steps_grp, steps_nil. cbn. lia. Qed.
Lemma weigh_ident i : weigh (TIdent i) = S (String.length (i_name i)). Proof. reflexivity. Qed.
Lemma weigh_lit k s : weigh (TLit k s) = S (String.length s). Proof. reflexivity. Qed.
Lemma weight_nil : weight [] = 0. Proof. reflexivity. Qed.
(** Fixed words. *)
Lemma weigh_kw s : weigh (kw s) = S (String.length s). Proof. reflexivity. Qed.
Lemma weigh_punct c sp : weigh (TPunct c sp) = 1. Proof. reflexivity. Qed.
Lemma weigh_pu c : weigh (pu c) = 1. Proof. reflexivity. Qed.
Lemma weight_gpath_cons s l : weight (gpath (s :: l)) = 3 + String.length s + weight (gpath l).
Proof. unfold gpath. cbn [flat_map]. rewrite !weight_app. change (weight colon2) with 2. change (weight [kw s]) with (S (String.length s) + 0). lia. Qed.
Lemma weight_gpath_nil : weight (gpath []) = 0. Proof. reflexivity. Qed.
Lemma weight_colon2 : weight colon2 = 2. Proof. reflexivity. Qed.
Lemma weight_oror : weight oror = 2. Proof. reflexivity. Qed.
Lemma weigh_par ts : weigh (par ts) = S (weight ts). Proof. reflexivity. Qed.

Ltac count :=
  cbv zeta;
  repeat (rewrite ?steps_app, ?steps_fixed, ?steps_method, ?steps_cons, ?steps_nil, ?steps_grp, ?steps_tok, ?steps_splice,
    ?weight_app, ?weight_cons, ?weight_gpath_cons, ?weight_gpath_nil, ?weight_colon2, ?weight_oror, ?weigh_par, ?weigh_group, ?weigh_kw, ?weigh_pu, ?weigh_punct, ?weigh_ident, ?weigh_lit, ?weight_nil);
  cbn [String.length i_name fst snd].

Ltac li := cbn beta in *; lia.

(** ** What expanding the parts may cost *)

Notation len := (@List.length tt).
Notation slen := String.length.
Definition c_value (v : value) : nat :=
  match v with
  | VLit l => 3 + weight (lit_tokens l)
  | VBlock ts => 6 + 2 * len ts
  | VBracket None ts => 15 + len ts
  | VBracket (Some p) ts => 42 + slen (i_name p) + len ts
  end.
Lemma b_value v : costs (w_value_tokens v) (c_value v) (fun ts => len ts <= 11).
Proof.
  unfold w_value_tokens. destruct v as [l|ts|[p|] ts]; cbn [c_value].
  - eapply costs_bind with (n := S (weight (lit_tokens l))) (P := fun ts => len ts = 1).
    + apply costs_quote; [now rewrite steps_fixed|]. rewrite quote_fixed. destruct l as [k s|[]]; reflexivity.
    + li.
    + intros a Ha. apply costs_extend_then; [li|]. apply costs_ret. li.
  - eapply costs_bind with (n := 3 + S (len ts) + len ts) (P := fun ts => len ts = 1).
    + apply costs_pay_then; [li|]. apply costs_quote; [count; li|reflexivity].
    + li.
    + intros a Ha. apply costs_extend_then; [li|]. apply costs_ret. li.
  - eapply costs_bind with (n := 29 + slen (i_name p) + len ts) (P := fun ts => len ts <= 11).
    + apply costs_pay_then; [li|]. destruct (ident_is p "f").
      * apply costs_quote; [count; li|]. quoted. cbn. li.
      * apply costs_emit_then; [li|]. apply costs_ret. cbn. li.
    + li.
    + intros a Ha. apply costs_extend_then; [li|]. apply costs_ret. li.
  - eapply costs_bind with (n := 10 + len ts) (P := fun ts => len ts = 4).
    + apply costs_quote; [count; li|]. quoted. reflexivity.
    + li.
    + intros a Ha. apply costs_extend_then; [li|]. apply costs_ret. li.
Qed.
Definition c_opt (v : option value) : nat := match v with Some v => c_value v | None => 0 end.
Lemma b_opt v : costs (w_opt_value_tokens v) (c_opt v) (fun ts => len ts <= 11).
Proof. destruct v; [apply b_value|]. apply costs_ret. cbn. li. Qed.
(** A value or [true], copied. *)
Definition c_true (v : option value) : nat := match v with Some v => 2 * c_value v | None => 16 end.
Lemma b_true v {B} (f : value -> WX B) N Q : c_true v <= N ->
  (forall v', c_value v' <= N -> costs (f v') (c_value v' + (N - c_true v)) Q) -> costs (x_bind (w_value_or_true v) f) N Q.
Proof.
  intros HN Hf. unfold w_value_or_true.
  eapply costs_bind with (n := c_true v - c_value (value_or_true v)) (P := fun v' => v' = value_or_true v).
  - apply costs_pay_then; [|now apply costs_ret]. destruct v as [[l|ts|[p|] ts]|]; cbn; li.
  - li.
  - intros v' ->. assert (c_value (value_or_true v) <= c_true v) by (destruct v; cbn; li).
    replace (N - (c_true v - c_value (value_or_true v))) with (c_value (value_or_true v) + (N - c_true v)) by li. apply Hf. li.
Qed.
Lemma dashes_length s : slen (dashes_to_underscores s) = slen s.
Proof. induction s as [|c s IH]; cbn; congruence. Qed.
Lemma b_snake k : costs (w_xsnake k) (2 + 2 * slen (k_repr k)) (fun i => slen (i_name i) = slen (k_repr k)).
Proof.
  split; [cbn; li|]. intros i. unfold w_xsnake. cbn [snd x_priced]. unfold xsnake, to_snake_ident, new_raw.
  destruct (existsb _ _); [discriminate|]. cbn. intros H. injection H as <-. apply dashes_length.
Qed.
Definition c_key (k : kebab_or_str) : nat := slen (key_string k).
(** An identifier from a key; it may be the word for an invalid one. *)
Lemma b_ident k : costs (w_to_ident_or_emit k) (32 + 2 * c_key k) (fun i => slen (i_name i) <= 30 + c_key k).
Proof.
  destruct k as [k|s]; cbn [w_to_ident_or_emit].
  - eapply costs_le; [apply b_snake|unfold c_key; cbn; li|]. unfold c_key. cbn. intros; li.
  - apply costs_emit_then; [li|]. apply costs_pay_then; [li|]. apply costs_ret. cbn. li.
Qed.
Lemma b_modifier m : costs (w_emit_error_if_modifier m) 1 (fun _ => True).
Proof. destruct m; [now apply costs_emit|now apply costs_ret]. Qed.
Lemma b_key {B} k (f : string -> WX B) N Q : S (c_key k) <= N ->
  costs (f (key_string k)) (N - S (c_key k)) Q -> costs (x_bind (w_key_string k) f) N Q.
Proof.
  intros HN Hf. unfold w_key_string. eapply costs_bind with (n := S (c_key k)) (P := fun s => s = key_string k).
  - apply costs_pay_then; [reflexivity|]. now apply costs_ret.
  - exact HN.
  - now intros s ->.
Qed.
Lemma b_kind {B} s (f : attribute_kind -> WX B) N Q : 18 + slen s <= N ->
  (forall k, costs (f k) (N - (18 + slen s)) Q) -> costs (x_bind (w_attribute_kind_from s) f) N Q.
Proof.
  intros HN Hf. unfold w_attribute_kind_from. eapply costs_bind with (n := 18 + slen s) (P := fun _ => True).
  - apply costs_pay_then; [reflexivity|]. now apply costs_ret.
  - exact HN.
  - auto.
Qed.

(** What a directive is made of. *)
Definition c_mod (m : option ident) : nat := match m with Some m => S (slen (i_name m)) | None => 0 end.
Definition c_name (d : directive) : nat := slen (i_name (d_dir d)).
Definition call_ (ts : list tt) : Prop := len ts <= 3.

Lemma b_use d : costs (w_use_directive_fn_value d) (100 + c_name d + 2 * c_key (d_key d) + c_opt (d_value d))
  (fun p => slen (i_name (fst p)) <= 30 + c_key (d_key d) /\ len (snd p) <= 13).
Proof.
  unfold w_use_directive_fn_value. apply costs_pay_then; [unfold compare_steps, c_name; li|]. unfold compare_steps. fold (c_name d).
  eapply costs_bind with (n := 1) (P := fun _ => True); [destruct (ident_is _ _); [now apply costs_ret|now apply costs_panic]|li|intros _ _].
  eapply costs_bind; [apply b_ident|li|]. intros i Hi.
  eapply costs_bind; [apply b_modifier|li|]. intros _ _.
  destruct (d_value d) as [v|]; cbn [c_opt].
  - eapply costs_bind; [apply b_value|li|]. intros ts Hts.
    eapply costs_bind with (n := 50) (P := fun ts => len ts = 13); [apply costs_quote; [count; li|quoted; reflexivity]|li|].
    intros t Ht. apply costs_ret. cbn [fst snd]. li.
  - eapply costs_bind with (n := 20) (P := fun ts => len ts = 4); [apply costs_quote; [count; li|quoted; reflexivity]|li|].
    intros t Ht. apply costs_ret. cbn [fst snd]. li.
Qed.
Lemma b_event d : costs (w_event_listener_event_path d) (145 + c_name d + 4 * c_key (d_key d) + 2 * c_mod (d_modifier d)) (fun ts => len ts <= 16).
Proof.
  unfold w_event_listener_event_path. apply costs_pay_then; [unfold compare_steps, c_name; li|]. unfold compare_steps. fold (c_name d).
  eapply costs_bind with (n := 1) (P := fun _ => True); [destruct (ident_is _ _); [now apply costs_ret|now apply costs_panic]|li|intros _ _].
  eapply costs_bind with (n := 15 + 2 * c_key (d_key d)) (P := fun i => slen (i_name i) <= 13 + c_key (d_key d)).
  { destruct (d_key d) as [k|s]; unfold c_key; cbn [key_string].
    - eapply costs_le; [apply b_snake|li|]. cbn. intros; li.
    - apply costs_emit_then; [li|]. apply costs_pay_then; [li|]. apply costs_ret. cbn. li. }
  { li. }
  intros ev Hev. destruct (d_modifier d) as [m|]; cbn [c_mod].
  - apply costs_pay_then; [li|]. destruct (ident_is m _).
    + apply costs_quote; [count; li|]. quoted. cbn. li.
    + apply costs_emit_then; [li|]. apply costs_quote; [count; li|]. quoted. cbn. li.
  - apply costs_quote; [count; li|]. quoted. cbn. li.
Qed.

(** ** Attributes of elements *)

Definition c_kv (a : kv_attr) : nat := 130 + 4 * slen (k_repr (kv_key a)) + c_value (kv_value a).
Lemma b_xml_kv a k : costs (w_xml_kv_attribute_tokens a k) (c_kv a) call_.
Proof.
  unfold w_xml_kv_attribute_tokens, c_kv. cbv zeta. apply costs_pay_then; [li|]. destruct (String.eqb _ "ref").
  { eapply costs_bind; [apply b_value|li|]. intros v Hv. apply costs_quote; [count; li|]. quoted. cbn. unfold call_. cbn. li. }
  apply b_kind; [li|]. intros ak. destruct (_ && _).
  - eapply costs_bind; [apply b_value|li|]. intros v Hv. apply costs_quote; [count; li|]. quoted. unfold call_. cbn. li.
  - eapply costs_bind; [apply b_snake|li|]. intros i Hi.
    eapply costs_bind; [apply b_value|li|]. intros v Hv. apply costs_quote; [count; li|]. quoted. unfold call_. cbn. li.
Qed.
Lemma b_component_kv a : costs (w_component_kv_attribute_tokens a) (c_kv a) call_.
Proof.
  unfold w_component_kv_attribute_tokens, c_kv. eapply costs_bind; [apply b_snake|li|]. intros i Hi.
  eapply costs_bind; [apply b_value|li|]. intros v Hv. apply costs_quote; [count; li|]. quoted. unfold call_. cbn. li.
Qed.
Definition c_dir (d : directive) : nat :=
  290 + 20 * c_name d + 7 * c_key (d_key d) + 2 * c_mod (d_modifier d) + c_true (d_value d).
Lemma opt_true v : c_opt v <= c_true v. Proof. destruct v; cbn; li. Qed.
Lemma b_xml_directive d : costs (w_xml_directive_tokens d) (c_dir d) call_.
Proof.
  unfold w_xml_directive_tokens, c_dir. cbv zeta. assert (Ht := opt_true (d_value d)).
  apply costs_pay_then; [unfold dir_steps, compare_steps, c_name; li|]. unfold dir_steps, compare_steps. fold (c_name d).
  destruct (_ || _).
  { apply b_key; [li|]. eapply costs_bind; [apply b_modifier|li|intros _ _]. eapply costs_bind; [apply b_opt|li|]. intros v Hv.
    apply costs_quote; [count; unfold c_name, c_key in *; li|]. quoted. unfold call_. cbn. li. }
  destruct (String.eqb _ "prop").
  { apply b_key; [li|]. eapply costs_bind; [apply b_modifier|li|intros _ _]. eapply costs_bind; [apply b_opt|li|]. intros v Hv.
    apply costs_quote; [count; unfold c_name, c_key in *; li|]. quoted. unfold call_. cbn. li. }
  destruct (String.eqb _ "on").
  { eapply costs_bind; [apply b_event|li|]. intros p Hp. eapply costs_bind; [apply b_opt|li|]. intros v Hv.
    apply costs_quote; [count; unfold c_name, c_key in *; li|]. quoted. unfold call_. cbn. li. }
  destruct (String.eqb _ "use").
  { eapply costs_bind; [apply b_use|li|]. intros [i t] [Hi Hp]. cbn [fst snd] in *.
    apply costs_quote; [count; unfold c_name, c_key in *; li|]. quoted. unfold call_. cbn. li. }
  destruct (_ || _); (apply costs_emit_then; [li|]; apply costs_ret; unfold call_; cbn; li).
Qed.
Lemma b_clone d : costs (w_component_clone_tokens d) (130 + 4 * c_key (d_key d)) (fun ts => len ts = 8).
Proof.
  unfold w_component_clone_tokens. eapply costs_bind; [apply b_ident|li|]. intros i Hi.
  eapply costs_bind; [apply b_modifier|li|intros _ _].
  eapply costs_bind with (n := 1) (P := fun _ => True); [destruct (d_value d); [now apply costs_emit|now apply costs_ret]|li|intros _ _].
  apply costs_quote; [count; li|]. quoted. reflexivity.
Qed.
Lemma name_length i : slen (ident_to_string i) <= 2 + slen (i_name i).
Proof. destruct i as [[] s]; cbn; li. Qed.
Lemma b_any_attr d m : w_directive_to_any_attr_path d = Some m ->
  costs m (250 + 4 * c_name d + 7 * c_key (d_key d) + 2 * c_mod (d_modifier d) + c_true (d_value d)) (fun ts => len ts <= 19).
Proof.
  unfold w_directive_to_any_attr_path. cbv zeta. assert (Ht := opt_true (d_value d)). assert (Hn := name_length (d_dir d)). fold (c_name d) in Hn.
  destruct (_ || _).
  { intros H. injection H as <-. apply b_key; [li|]. apply b_true; [li|]. intros v' Hv'. unfold compare_steps. fold (c_name d).
    apply costs_pay_then; [li|]. eapply costs_bind; [apply b_value|li|]. intros v Hv.
    apply costs_quote; [count; unfold c_key in *; fold (c_name d); li|]. quoted. cbn. li. }
  destruct (String.eqb _ "attr").
  { intros H. injection H as <-. apply b_key; [li|]. apply b_kind; [unfold c_key; li|]. fold (c_key (d_key d)).
    assert (Hcs : forall N, 200 + c_name d + 5 * c_key (d_key d) + c_true (d_value d) <= N -> costs
      (i <- w_to_ident_or_emit (d_key d) ;; v <- w_value_or_true (d_value d) ;; x_pay (compare_steps i) ;;; v <- w_value_tokens v ;;
       quote (fixed (gpath ["leptos"; "tachys"; "html"] ++ colon2 ++ [TIdent (unraw i)] ++ colon2 ++ [TIdent i]) ++ [Grp Paren [Splice v]]))%xwork
      N (fun ts => len ts <= 19)).
    { intros N HN. eapply costs_bind; [apply b_ident|li|]. intros i Hi. apply b_true; [li|]. intros v' Hv'. unfold compare_steps.
      apply costs_pay_then; [li|]. eapply costs_bind; [apply b_value|li|]. intros v Hv.
      apply costs_quote; [count; unfold unraw; cbn [i_name]; li|]. quoted. cbn. li. }
    intros [| | |]; [apply Hcs; li|apply Hcs; li| |].
    - apply b_key; [li|]. apply b_true; [li|]. intros v' Hv'. eapply costs_bind; [apply b_value|li|]. intros v Hv.
      apply costs_quote; [count; unfold c_key in *; li|]. quoted. cbn. li.
    - eapply costs_bind; [apply b_ident|li|]. intros i Hi. apply b_true; [li|]. intros v' Hv'. eapply costs_bind; [apply b_value|li|]. intros v Hv.
      apply costs_quote; [count; li|]. quoted. cbn. li. }
  destruct (String.eqb _ "prop").
  { intros H. injection H as <-. eapply costs_bind; [apply b_ident|li|]. intros i Hi. apply b_true; [li|]. intros v' Hv'. eapply costs_bind; [apply b_value|li|]. intros v Hv.
    apply costs_quote; [count; li|]. quoted. cbn. li. }
  destruct (String.eqb _ "on").
  { intros H. injection H as <-. eapply costs_bind; [apply b_event|li|]. intros p Hp. eapply costs_bind; [apply b_opt|li|]. intros v Hv.
    apply costs_quote; [count; li|]. quoted. cbn. li. }
  destruct (String.eqb _ "use"); [|discriminate].
  intros H. injection H as <-. eapply costs_bind; [apply b_use|li|]. intros [i t] [Hi Hp]. cbn [fst snd] in *.
  apply costs_quote; [count; li|]. quoted. cbn. li.
Qed.

(** ** Lists *)

Definition sum {A} (f : A -> nat) (l : list A) : nat := fold_right (fun a n => f a + n) 0 l.
Lemma sum_cons {A} (f : A -> nat) a l : sum f (a :: l) = f a + sum f l. Proof. reflexivity. Qed.
Lemma sum_nil {A} (f : A -> nat) : sum f [] = 0. Proof. reflexivity. Qed.
Lemma sum_app {A} (f : A -> nat) a b : sum f (a ++ b) = sum f a + sum f b.
Proof. induction a as [|x a IH]; [reflexivity|]. cbn [app]. rewrite !sum_cons, IH. lia. Qed.
Lemma sum_le {A} (f g : A -> nat) l : (forall a, In a l -> f a <= g a) -> sum f l <= sum g l.
Proof.
  induction l as [|x l IH]; intros H; [reflexivity|]. rewrite !sum_cons.
  assert (H1 := H x (or_introl eq_refl)). assert (H2 : sum f l <= sum g l) by (apply IH; intros; apply H; now right). lia.
Qed.
Lemma sum_perm {A} (f : A -> nat) l l' : Permutation l l' -> sum f l = sum f l'.
Proof. induction 1; rewrite ?sum_cons in *; lia. Qed.
Lemma sum_map {A B} (f : B -> nat) (g : A -> B) l : sum f (map g l) = sum (fun a => f (g a)) l.
Proof. induction l as [|x l IH]; [reflexivity|]. cbn [map]. now rewrite !sum_cons, IH. Qed.
Lemma sum_plus {A} (f g : A -> nat) l : sum (fun a => f a + g a) l = sum f l + sum g l.
Proof. induction l as [|x l IH]; [reflexivity|]. rewrite !sum_cons, IH. lia. Qed.
Lemma sum_const {A} n (l : list A) : sum (fun _ => n) l = n * List.length l.
Proof. induction l as [|x l IH]; [cbn; lia|]. rewrite sum_cons, IH. cbn [List.length]. lia. Qed.
Lemma length_concat (l : list (list tt)) : len (List.concat l) = sum len l.
Proof. induction l as [|x l IH]; [reflexivity|]. cbn [List.concat]. rewrite app_length, IH. reflexivity. Qed.
Lemma sum_partition {A} (f : A -> nat) p (l : list A) : let (a, b) := partition p l in sum f a + sum f b = sum f l.
Proof.
  induction l as [|x l IH]; [reflexivity|]. cbn [partition]. destruct (partition p l) as [a b].
  rewrite sum_cons. destruct (p x); rewrite sum_cons; lia.
Qed.

Lemma b_seq {A B} (w : A -> WX B) (c : A -> nat) (P : A -> B -> Prop) l :
  (forall a, In a l -> costs (w a) (c a) (P a)) -> costs (x_seq (map w l)) (sum (fun a => S (c a)) l) (Forall2 P l).
Proof.
  induction l as [|a l IH]; intros H; cbn [map x_seq].
  - apply costs_ret. constructor.
  - rewrite sum_cons. eapply costs_bind; [apply H; now left|lia|]. intros b Hb. apply costs_pay_then; [lia|].
    eapply costs_bind; [apply IH; intros; apply H; now right|lia|]. intros r Hr. apply costs_ret. now constructor.
Qed.
Lemma Forall2_sum {A B} (P : A -> B -> Prop) (f : A -> nat) (g : B -> nat) l r :
  Forall2 P l r -> (forall a b, P a b -> g b <= f a) -> sum g r <= sum f l.
Proof. intros H Hf. induction H as [|a b l r Hab H IH]; [reflexivity|]. rewrite !sum_cons. specialize (Hf a b Hab). lia. Qed.

Lemma Forall2_len {A B} (P : A -> B -> Prop) l r : Forall2 P l r -> List.length l = List.length r.
Proof. induction 1; cbn; auto. Qed.

(** ** Selectors *)

Definition c_sel (s : selector) : nat := 420 + 18 * k_spans (sel_kebab s) + 9 * slen (k_repr (sel_kebab s)).
Lemma colored_weight k : weigh (to_str_colored k) = 2 + 11 * k_spans k + slen (k_repr k).
Proof.
  unfold to_str_colored. rewrite weigh_group, weight_app, weight_cons, weight_nil, weigh_lit.
  assert (H : forall n, weight (List.concat (repeat [kw "let"; kw "__x"; pu "="; par []; pu ";"] n)) = 11 * n).
  { induction n as [|n IH]; [reflexivity|]. cbn [repeat List.concat]. rewrite weight_app, IH. count. li. }
  rewrite H. li.
Qed.
Lemma b_colored {B} k (f : list tt -> WX B) N Q : 3 + 18 * k_spans k + slen (k_repr k) <= N ->
  (forall ts, len ts = 1 -> costs (f ts) (N - (3 + 18 * k_spans k + slen (k_repr k))) Q) -> costs (x_bind (w_to_str_colored k) f) N Q.
Proof.
  intros HN Hf. unfold w_to_str_colored. eapply costs_bind with (P := fun ts => len ts = 1); [|exact HN|exact Hf].
  apply costs_pay_then; [li|]. apply costs_quote; [rewrite steps_cons, steps_nil, steps_tok, colored_weight; li|reflexivity].
Qed.
Lemma b_class s : costs (w_class_method s) (30 + 18 * k_spans (sel_kebab s) + slen (k_repr (sel_kebab s))) (fun ts => len ts = 3).
Proof.
  unfold w_class_method. apply b_colored; [li|]. intros c Hc. apply costs_quote; [count; li|quoted; reflexivity].
Qed.
Lemma b_id s : costs (w_id_method s) (30 + 18 * k_spans (sel_kebab s) + slen (k_repr (sel_kebab s))) (fun ts => len ts = 3).
Proof.
  unfold w_id_method. apply b_colored; [li|]. intros c Hc. apply costs_quote; [count; li|quoted; reflexivity].
Qed.
Lemma steps_splices l : quote_steps (map Splice l) = sum (fun ts => S (len ts)) l.
Proof. induction l as [|x l IH]; [reflexivity|]. cbn [map]. rewrite steps_cons, steps_splice, sum_cons, IH. li. Qed.
Lemma b_xml_selectors sels : costs (w_xml_selectors_tokens sels) (2 + sum (fun s => 50 + 18 * k_spans (sel_kebab s) + slen (k_repr (sel_kebab s))) sels)
  (fun ts => len ts <= 3 * List.length sels).
Proof.
  unfold w_xml_selectors_tokens.
  assert (Hs := sum_partition (fun s => 40 + 18 * k_spans (sel_kebab s) + slen (k_repr (sel_kebab s))) sel_is_class sels).
  assert (Hl := sum_partition (fun _ => 1) sel_is_class sels).
  assert (Hx : sum (fun s => 50 + 18 * k_spans (sel_kebab s) + slen (k_repr (sel_kebab s))) sels =
     10 * List.length sels + sum (fun s => 40 + 18 * k_spans (sel_kebab s) + slen (k_repr (sel_kebab s))) sels).
  { rewrite <- sum_const, <- sum_plus. reflexivity. }
  apply costs_pay_then; [li|]. destruct (partition sel_is_class sels) as [cl il]. rewrite !sum_const in Hl.
  eapply costs_bind; [apply b_seq; intros a _; apply b_class|..].
  { assert (H : sum (fun s => S (30 + 18 * k_spans (sel_kebab s) + slen (k_repr (sel_kebab s)))) cl <= sum (fun s => 40 + 18 * k_spans (sel_kebab s) + slen (k_repr (sel_kebab s))) cl) by (apply sum_le; intros; li). li. }
  intros r1 Hr1. eapply costs_bind; [apply b_seq; intros a _; apply b_id|..].
  { assert (H : sum (fun s => S (30 + 18 * k_spans (sel_kebab s) + slen (k_repr (sel_kebab s)))) cl <= sum (fun s => 40 + 18 * k_spans (sel_kebab s) + slen (k_repr (sel_kebab s))) cl) by (apply sum_le; intros; li).
    assert (H' : sum (fun s => S (30 + 18 * k_spans (sel_kebab s) + slen (k_repr (sel_kebab s)))) il <= sum (fun s => 40 + 18 * k_spans (sel_kebab s) + slen (k_repr (sel_kebab s))) il) by (apply sum_le; intros; li). li. }
  intros r2 Hr2.
  assert (H1 := Forall2_sum _ (fun _ => 3) len _ _ Hr1 ltac:(intros; cbn in *; li)).
  assert (H2 := Forall2_sum _ (fun _ => 3) len _ _ Hr2 ltac:(intros; cbn in *; li)).
  rewrite sum_const in H1, H2.
  assert (H3 := Forall2_len _ _ _ Hr1). assert (H4 := Forall2_len _ _ _ Hr2).
  apply costs_quote.
  - rewrite steps_app, !steps_splices.
    assert (Hp : forall l : list (list tt), sum (fun ts => S (len ts)) l = List.length l + sum len l).
    { intros l. induction l as [|x l IH]; [reflexivity|]. rewrite !sum_cons, IH. cbn [List.length]. li. }
    rewrite !Hp.
    assert (H : sum (fun s => S (30 + 18 * k_spans (sel_kebab s) + slen (k_repr (sel_kebab s)))) cl <= sum (fun s => 40 + 18 * k_spans (sel_kebab s) + slen (k_repr (sel_kebab s))) cl) by (apply sum_le; intros; li).
    assert (H' : sum (fun s => S (30 + 18 * k_spans (sel_kebab s) + slen (k_repr (sel_kebab s)))) il <= sum (fun s => 40 + 18 * k_spans (sel_kebab s) + slen (k_repr (sel_kebab s))) il) by (apply sum_le; intros; li). li.
  - quoted. rewrite app_length, !length_concat. li.
Qed.

(** The classes and ids of a component. *)
Lemma join_length l : slen (join_space l) <= sum (fun s => S (slen s)) l.
Proof.
  induction l as [|s l IH]; [cbn; li|]. rewrite sum_cons. destruct l as [|s' l]; [cbn; li|].
  change (join_space (s :: s' :: l)) with (s ++ " " ++ join_space (s' :: l))%string.
  assert (Ha : forall a b, slen (a ++ b) = slen a + slen b) by (induction a; intros; cbn; auto). rewrite !Ha. cbn [String.length]. li.
Qed.
Definition c_dirs (dirs : list (list tt)) : nat := sum (fun d => 2 + len d) dirs.
Lemma b_component_selectors sels : costs (w_component_selectors sels) (sum c_sel sels) (fun dirs => c_dirs dirs <= 21 * List.length sels).
Proof.
  unfold w_component_selectors.
  assert (Hs := sum_partition c_sel sel_is_class sels).
  assert (Hl := sum_partition (fun _ => 1) sel_is_class sels).
  destruct (partition sel_is_class sels) as [cl il]. rewrite !sum_const in Hl.
  assert (Hc : costs (x_seq (map (fun s => (x_pay (S (copy_steps (sel_kebab s))) ;;; x_pay (dir_steps (class_directive (sel_kebab s))) ;;;
    w_expect_path (w_directive_to_any_attr_path (class_directive (sel_kebab s))))%xwork) cl)) (sum c_sel cl) (Forall2 (fun _ ts => len ts <= 19) cl)).
  { eapply costs_le; [apply (b_seq _ (fun s => c_sel s - 1) (fun _ ts => len ts <= 19))|apply sum_le; intros; unfold c_sel; li|auto].
    intros s _. unfold copy_steps, c_sel. apply costs_pay_then; [li|]. change (dir_steps _) with 48. apply costs_pay_then; [li|].
    destruct (w_directive_to_any_attr_path (class_directive (sel_kebab s))) as [m|] eqn:Hm; [|discriminate].
    apply b_any_attr in Hm. cbn [w_expect_path]. eapply costs_le; [apply Hm| |auto].
    change (c_name _) with 5. change (c_key _) with (slen (k_repr (sel_kebab s))). cbn [class_directive d_modifier d_value c_mod c_true]. li. }
  eapply costs_bind; [apply Hc|li|]. intros r Hr.
  assert (Hd : c_dirs r <= 21 * List.length cl).
  { assert (H := Forall2_sum _ (fun _ => 21) (fun d => 2 + len d) _ _ Hr ltac:(intros; cbn in *; li)). now rewrite sum_const in H. }
  destruct il as [|i il].
  - apply costs_ret. li.
  - set (ids := i :: il) in *. cbv zeta.
    assert (H1 : sum (fun s => 5 + k_spans (sel_kebab s) + 4 * slen (k_repr (sel_kebab s))) ids + 400 <= sum c_sel ids).
    { unfold ids. rewrite !sum_cons. assert (H : sum (fun s => 5 + k_spans (sel_kebab s) + 4 * slen (k_repr (sel_kebab s))) il <= sum c_sel il) by (apply sum_le; intros; unfold c_sel; li).
      unfold c_sel at 1. li. }
    assert (Hj := join_length (map (fun s => k_repr (sel_kebab s)) ids)). rewrite sum_map in Hj.
    assert (Ha : sum (fun s => S (copy_steps (sel_kebab s))) ids + 3 * sum (fun s => S (slen (k_repr (sel_kebab s)))) ids <=
       sum (fun s => 5 + k_spans (sel_kebab s) + 4 * slen (k_repr (sel_kebab s))) ids).
    { clear. induction ids as [|s l IH]; [reflexivity|]. rewrite !sum_cons. cbn [List.length]. unfold copy_steps at 1. li. }
    fold (sum (fun s => S (copy_steps (sel_kebab s))) ids).
    apply costs_pay_then; [li|]. apply costs_pay_then; [li|]. change (dir_steps _) with 40. apply costs_pay_then; [li|].
    destruct (w_directive_to_any_attr_path (id_directive (map (fun s => k_repr (sel_kebab s)) ids))) as [m|] eqn:Hm; [|discriminate].
    apply b_any_attr in Hm. cbn [w_expect_path].
    change (c_name _) with 4 in Hm. change (c_key _) with 2 in Hm. cbn [id_directive d_modifier d_value c_mod c_true c_value lit_tokens] in Hm.
    rewrite weight_cons, weight_nil, weigh_lit in Hm.
    eapply costs_bind; [apply Hm|li|]. intros ts Hts. apply costs_ret. unfold c_dirs in *. rewrite sum_app, sum_cons, sum_nil.
    unfold ids in Hl. cbn [List.length] in Hl. cbn beta in Hts. li.
Qed.

(** ** The loops over the attributes *)

(** What an attribute costs, and the tokens it leaves. *)
Definition c_attr (a : attr) : nat :=
  match a with AKv kv => 10 + c_kv kv | ADir d => 10 + c_dir d | ASpread s => 25 + len s end.
Definition o_attr (a : attr) : nat := match a with ASpread s => 21 + len s | _ => 21 end.

Lemma b_xml_loop k l : forall kvs dirs sps,
  costs (w_xml_attr_loop k l (kvs, dirs, sps)) (sum c_attr l)
    (fun '(a, b, c) => len a + len b + len c <= len kvs + len dirs + len sps + sum o_attr l).
Proof.
  induction l as [|a l IH]; intros kvs dirs sps; cbn [w_xml_attr_loop]; [apply costs_ret; rewrite sum_nil; lia|]. rewrite !sum_cons.
  destruct a as [kv|d|s]; cbn [c_attr o_attr].
  - eapply costs_bind; [apply b_xml_kv|lia|]. intros t Ht. unfold call_ in Ht. apply costs_extend_then; [lia|].
    eapply costs_le; [apply IH|lia|]. intros [[x y] z]. rewrite app_length. lia.
  - eapply costs_bind; [apply b_xml_directive|lia|]. intros t Ht. unfold call_ in Ht. apply costs_extend_then; [lia|].
    eapply costs_le; [apply IH|lia|]. intros [[x y] z]. rewrite app_length. lia.
  - eapply costs_bind with (n := 18 + len s) (P := fun ts => len ts = 3); [apply costs_quote; [count; lia|reflexivity]|lia|].
    intros t Ht. apply costs_extend_then; [lia|].
    eapply costs_le; [apply IH|lia|]. intros [[x y] z]. rewrite app_length. lia.
Qed.
Lemma b_component_loop slot l : forall props dirs clones,
  costs (w_component_attr_loop slot l (props, dirs, clones)) (sum c_attr l)
    (fun '(a, b, c) => len a + c_dirs b + len c <= len props + c_dirs dirs + len clones + sum o_attr l).
Proof.
  induction l as [|a l IH]; intros props dirs clones; cbn [w_component_attr_loop]; [apply costs_ret; rewrite sum_nil; lia|]. rewrite !sum_cons.
  assert (Hd : forall d t, c_dirs (d ++ [t]) = c_dirs d + (2 + len t)) by (intros; unfold c_dirs; rewrite sum_app, sum_cons, sum_nil; lia).
  destruct a as [kv|d|s]; cbn [c_attr o_attr].
  - eapply costs_bind; [apply b_component_kv|lia|]. intros t Ht. unfold call_ in Ht. apply costs_extend_then; [lia|].
    eapply costs_le; [apply IH|lia|]. intros [[x y] z]. rewrite app_length. lia.
  - unfold c_dir. assert (Hs : dir_steps d = 8 + 8 * c_name d) by (unfold dir_steps, compare_steps, c_name; lia). rewrite Hs.
    apply costs_pay_then; [lia|]. destruct (String.eqb _ _).
    + eapply costs_bind; [apply b_modifier|lia|intros _ _]. eapply costs_bind; [apply b_clone|lia|]. intros t Ht.
      apply costs_extend_then; [cbn beta in *; lia|]. eapply costs_le; [apply IH|cbn beta in *; lia|]. intros [[x y] z]. rewrite app_length. cbn beta in *. lia.
    + destruct slot.
      { apply costs_emit_then; [lia|]. eapply costs_le; [apply IH|lia|]. intros [[x y] z]. lia. }
      destruct (w_directive_to_any_attr_path d) as [m|] eqn:Hm.
      * apply b_any_attr in Hm. eapply costs_bind; [apply Hm|lia|]. intros t Ht. apply costs_pay_then; [lia|].
        eapply costs_le; [apply IH|lia|]. intros [[x y] z]. rewrite Hd. cbn beta in *. lia.
      * apply costs_emit_then; [lia|]. eapply costs_le; [apply IH|lia|]. intros [[x y] z]. lia.
  - destruct slot.
    + apply costs_emit_then; [lia|]. eapply costs_le; [apply IH|lia|]. intros [[x y] z]. lia.
    + apply costs_pay_then; [lia|]. eapply costs_le; [apply IH|lia|]. intros [[x y] z]. rewrite Hd. lia.
Qed.

(** ** Tags *)

Definition c_path (p : path) : nat := weight (path_tokens p).
Lemma seg_turbofish s s' : x_out (turbofish_seg s) = XRet s' -> weight (seg_tokens s') <= 2 + weight (seg_tokens s).
Proof.
  destruct s as [i [|tf ts|ts]]; unfold turbofish_seg; cbn [seg_args x_out xret xabort]; intros H; inversion H; subst.
  - lia.
  - unfold seg_tokens. cbn [seg_args seg_ident]. rewrite !weight_cons, !weight_app. change (weight colon2) with 2. lia.
Qed.
Lemma segs_weight l : weight (segs_tokens l) + 2 = sum (fun s => 2 + weight (seg_tokens s)) l + match l with [] => 2 | _ => 0 end.
Proof.
  induction l as [|s l IH]; [reflexivity|]. rewrite sum_cons. destruct l as [|s' l]; [cbn [segs_tokens]; rewrite sum_nil; lia|].
  change (segs_tokens (s :: s' :: l)) with (seg_tokens s ++ colon2 ++ segs_tokens (s' :: l)). rewrite !weight_app. change (weight colon2) with 2. lia.
Qed.
Lemma seg_pos s : 1 <= weight (seg_tokens s).
Proof. unfold seg_tokens. rewrite weight_cons. assert (H := weigh_pos (TIdent (seg_ident s))). lia. Qed.
Lemma b_turbofish p : costs (w_turbofishify p) (3 + 3 * c_path p) (fun p' => c_path p' <= 2 + 3 * c_path p).
Proof.
  assert (Hl : List.length (segs p) <= c_path p).
  { unfold c_path, path_tokens. rewrite weight_app. assert (H := segs_weight (segs p)).
    assert (H' : 3 * List.length (segs p) <= sum (fun s => 2 + weight (seg_tokens s)) (segs p)).
    { rewrite <- sum_const. apply sum_le. intros s _. assert (H1 := seg_pos s). lia. }
    destruct (segs p); cbn [List.length] in *; lia. }
  unfold w_turbofishify. fold (c_path p). apply costs_pay_then; [lia|].
  eapply costs_bind.
  - apply (b_seq (fun s => x_priced 1 (turbofish_seg s)) (fun _ => 1) (fun s s' => weight (seg_tokens s') <= 2 + weight (seg_tokens s))).
    intros s _. split; [cbn; lia|]. intros s' H. apply seg_turbofish, H.
  - rewrite sum_const. lia.
  - intros l Hf. apply costs_ret. unfold c_path, path_tokens. cbn [leading segs]. rewrite !weight_app.
    assert (H1 := segs_weight (segs p)). assert (H2 := segs_weight l).
    assert (H3 : sum (fun s => 2 + weight (seg_tokens s)) l <= sum (fun s => 4 + weight (seg_tokens s)) (segs p)).
    { apply (Forall2_sum _ _ _ _ _ Hf). intros; cbn in *; lia. }
    assert (H4 : sum (fun s => 4 + weight (seg_tokens s)) (segs p) = 2 * List.length (segs p) + sum (fun s => 2 + weight (seg_tokens s)) (segs p)).
    { rewrite <- sum_const, <- sum_plus. apply Nat.le_antisymm; apply sum_le; intros; lia. }
    unfold c_path, path_tokens in Hl. rewrite weight_app in Hl.
    assert (H5 := Forall2_len _ _ _ Hf). destruct (segs p); destruct l; cbn [List.length] in *; lia.
Qed.
Lemma length_weight ts : len ts <= weight ts.
Proof. induction ts as [|t ts IH]; [reflexivity|]. rewrite weight_cons. cbn [List.length]. assert (H := weigh_pos t). lia. Qed.

Definition c_tag (t : tag) : nat :=
  match t with
  | TagComponent p => 380 + 21 * c_path p
  | TagHtml i | TagSvg i | TagMath i => 70 + slen (i_name i)
  | TagWeb k => 90 + slen (k_repr k)
  end.
Lemma b_tag_path t m : w_xml_tag_path t = Some m -> costs m (c_tag t - 20) (fun ts => len ts = 16) /\ 20 <= c_tag t.
Proof.
  unfold w_xml_tag_path. destruct t as [i|p|i|i|k]; cbn [xml_tag_path c_tag]; intros H; inversion H; subst; split; try lia;
    (apply costs_quote; [count; lia|quoted; reflexivity]).
Qed.

(** ** Children *)

Lemma b_render n m c o : costs m c (fun ts => len ts <= o) ->
  costs (w_into_render n m) (n + c + 2 * o + 80) (fun ts => len ts = 13).
Proof.
  intros Hm. unfold w_into_render. apply costs_pay_then; [lia|]. eapply costs_bind; [apply Hm|lia|]. intros ts Hts.
  apply costs_extend_then; [cbn beta in *; lia|].
  eapply costs_bind with (n := 60 + o) (P := fun ts => len ts = 13); [apply costs_quote; [count; cbn beta in *; lia|quoted; reflexivity]|cbn beta in *; lia|].
  intros r Hr. apply costs_extend_then; [cbn beta in *; lia|]. apply costs_ret. exact Hr.
Qed.
Definition node_ok (m : WX (list tt)) (c : nat) : Prop := costs m c (fun ts => len ts = 13).
Lemma Forall2_seq {A} (l : list (WX A)) cs (P : A -> Prop) : Forall2 (fun m c => costs m c P) l cs ->
  costs (x_seq l) (sum S cs) (fun r => Forall P r /\ List.length r = List.length cs).
Proof.
  induction 1 as [|m c l cs Hm H IH]; cbn [x_seq].
  - apply costs_ret. split; constructor.
  - rewrite sum_cons. eapply costs_bind; [apply Hm|lia|]. intros a Ha. apply costs_pay_then; [lia|]. eapply costs_bind; [apply IH|lia|].
    intros r [Hr1 Hr2]. apply costs_ret. split; [now constructor|]. cbn [List.length]. now rewrite Hr2.
Qed.
Lemma sum_forall {A} (f : A -> nat) n l : Forall (fun a => f a = n) l -> sum f l = n * List.length l.
Proof. induction 1 as [|a l Ha H IH]; [cbn; lia|]. rewrite sum_cons, Ha, IH. cbn [List.length]. lia. Qed.
Lemma b_xml_children nodes cs : Forall2 node_ok nodes cs ->
  costs (w_xml_child_methods_tokens nodes) (sum (fun c => 30 + c) cs) (fun ts => len ts = 3 * List.length cs).
Proof.
  intros H. unfold w_xml_child_methods_tokens.
  assert (H' : Forall2 (fun m c => costs m c (fun ts => len ts = 3)) (map w_child_method nodes) (map (fun c => 29 + c) cs)).
  { induction H as [|m c l cs Hm H IH]; cbn [map]; constructor; auto. unfold w_child_method.
    eapply costs_bind; [apply Hm|lia|]. intros ts Hts.
    eapply costs_bind with (n := 24) (P := fun ts => len ts = 3); [apply costs_quote; [count; cbn beta in *; lia|quoted; reflexivity]|lia|].
    intros r Hr. apply costs_extend_then; [cbn beta in *; lia|]. apply costs_ret. exact Hr. }
  eapply costs_bind; [apply (Forall2_seq _ _ _ H')|rewrite sum_map; apply sum_le; intros; lia|].
  intros r [Hr1 Hr2]. apply costs_ret. rewrite length_concat, (sum_forall _ 3 _ Hr1), Hr2, map_length. reflexivity.
Qed.
Lemma each_steps l : quote_steps (flat_map (fun c => [Splice c; Tok (pu ",")]) l) = c_dirs l.
Proof. induction l as [|x l IH]; [reflexivity|]. cbn [flat_map]. rewrite steps_app, IH. unfold c_dirs. rewrite sum_cons. count. lia. Qed.
Lemma b_fragment r n : Forall (fun ts => len ts = 13) r -> List.length r = n ->
  costs (w_children_fragment_tokens r) (40 + 15 * n) (fun ts => len ts = 13).
Proof.
  intros H <-. unfold w_children_fragment_tokens. apply costs_quote; [|quoted; reflexivity].
  count. rewrite each_steps.
  assert (Hd : c_dirs r = 15 * List.length r). { unfold c_dirs. apply sum_forall. eapply Forall_impl; [|apply H]. intros; cbn in *; lia. }
  lia.
Qed.
Definition c_args (args : option (list tt)) : nat := match args with Some a => 4 * len a | None => 0 end.
Lemma b_component_children nodes cs args clones : Forall2 node_ok nodes cs ->
  costs (w_component_children_tokens nodes args clones) (230 + c_args args + len clones + sum (fun c => 16 + c) cs) (fun ts => len ts = 3).
Proof.
  intros H. unfold w_component_children_tokens.
  assert (Hs : sum (fun c => 16 + c) cs = 15 * List.length cs + sum S cs).
  { rewrite <- sum_const, <- sum_plus. apply Nat.le_antisymm; apply sum_le; intros; lia. }
  apply costs_pay_then; [destruct args; cbn [c_args]; lia|].
  eapply costs_bind; [apply (Forall2_seq _ _ _ H)|destruct args; cbn [c_args]; lia|].
  intros r [Hr1 Hr2]. eapply costs_bind; [apply (b_fragment _ _ Hr1 Hr2)|destruct args; cbn [c_args]; lia|]. intros fr Hfr.
  eapply costs_bind with (n := 110 + match args with Some a => len a | None => 0 end) (P := fun ts => len ts <= 20 + match args with Some a => len a | None => 0 end).
  - destruct args as [a|].
    + apply costs_quote; [count; cbn beta in *; lia|]. quoted. cbn [List.length]. rewrite app_length. cbn beta in *. lia.
    + eapply costs_bind with (n := 25) (P := fun ts => len ts = 16).
      * apply costs_quote; [count; cbn beta in *; lia|]. quoted. cbn [List.length]. cbn. cbn beta in *. lia.
      * lia.
      * intros cl Hcl. apply costs_quote; [count; cbn beta in *; lia|]. quoted. cbn. lia.
  - destruct args; cbn [c_args] in *; lia.
  - intros w Hw. apply costs_quote; [|quoted; reflexivity]. count. cbn beta in *. destruct args; cbn [c_args] in *; lia.
Qed.
