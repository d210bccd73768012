(** The origin of every token of an expansion. *)
From Verif Require Export CountFacts PhraseInv SpecOrigin.
From Coq Require Import Permutation Lia.
Open Scope list_scope.

(** ** Every token of a stream, at any depth *)

Section Tokens.
Variable Q : tt -> Prop.
Fixpoint each (t : tt) : Prop :=
  match t with
  | TGroup _ ts => fold_right (fun t p => each t /\ p) True ts
  | _ => Q t
  end.
Definition all (ts : list tt) : Prop := Forall each ts.
Lemma each_group d ts : each (TGroup d ts) <-> all ts.
Proof.
  cbn [each]. unfold all. induction ts as [|t ts IH]; cbn; split; intros H; auto.
  - destruct H as [H1 H2]. constructor; tauto.
  - inversion H; subst. tauto.
Qed.
Lemma all_app a b : all (a ++ b) <-> all a /\ all b.
Proof. apply Forall_app. Qed.
Lemma all_cons t b : all (t :: b) <-> each t /\ all b.
Proof. split; [intros H; inversion H; auto|intros [? ?]; now constructor]. Qed.
Lemma all_nil : all []. Proof. constructor. Qed.
Lemma all_within x ts : all ts -> within x ts -> all x.
Proof.
  intros H Hw. induction Hw as [pre post|pre d inner post Hw IH]; apply all_app in H; destruct H as [_ H].
  - now apply all_app in H.
  - apply IH. apply all_cons in H. destruct H as [H _]. now apply each_group in H.
Qed.
Lemma all_each t ts : all ts -> within [t] ts -> (forall d x, t <> TGroup d x) -> Q t.
Proof.
  intros H Hw Hg. apply (all_within _ _ H) in Hw. apply all_cons in Hw. destruct Hw as [Hw _].
  destruct t as [i|c sp|k s|d x]; auto. now destruct (Hg d x).
Qed.
Lemma all_concat l : Forall all l -> all (List.concat l).
Proof. induction 1; cbn [List.concat]; [apply all_nil|]. apply all_app; auto. Qed.
End Tokens.
Lemma all_self (Q : tt -> Prop) ts : (forall t, within [t] ts -> Q t) -> all Q ts.
Proof.
  assert (Ht : forall n ts, size ts < n -> (forall t, within [t] ts -> Q t) -> all Q ts).
  { induction n as [|n IH]; intros us Hn H; [lia|]. apply Forall_forall. intros t Hin.
    assert (Hw : within [t] us). { apply in_split in Hin. destruct Hin as (a & b & ->). apply (within_here [t] a b). }
    destruct t as [i|c sp|k s|d x]; try (now apply H).
    apply each_group. apply IH.
    - assert (Hs := in_group_size d x us Hin). lia.
    - intros t Ht. apply H. eapply within_trans; [|exact Hw]. apply within_in. exact Ht. }
  apply (Ht (S (size ts))). lia.
Qed.

Lemma within_part a x b ts : within (a ++ x ++ b) ts -> within x ts.
Proof. intros H. eapply within_trans; [|exact H]. apply within_here. Qed.
Lemma within_inner d inner ts input : In (TGroup d inner) ts -> within ts input -> within inner input.
Proof.
  intros Hin H. eapply within_trans; [|exact H]. apply in_split in Hin. destruct Hin as (a & b & ->).
  apply within_group, within_refl.
Qed.
Lemma snake_ident s : lex_ident s -> snake_name s = s.
Proof.
  intros H. assert (Hc : Forall ident_continue (chars s)).
  { unfold lex_ident in H. destruct (chars s) as [|c r]; [contradiction|]. destruct H as [H1 H2].
    constructor; auto. now left. }
  assert (Hm : chars (snake_name s) = chars s).
  { rewrite snake_chars. induction Hc as [|c l Hc Hl IH]; [reflexivity|]. cbn [map]. rewrite IH.
    destruct (ascii_dec c "-") as [->|]; [|reflexivity]. exfalso. apply contb_iff in Hc. discriminate. }
  apply (f_equal unchars) in Hm. unfold chars, unchars in Hm. now rewrite !string_of_list_ascii_of_string in Hm.
Qed.

Section Origin.
Variable E : env.
Variable input : list tt.
Hypothesis Hwf : wf input.

(** Punctuation is not tracked. *)
Definition Q (t : tt) : Prop := match t with TPunct _ _ => True | _ => origin input t end.
Notation A := (all Q).
Notation L := (fun ts => within ts input).

Lemma A_user ts : within ts input -> A ts.
Proof.
  intros H. apply all_self. intros t Ht. assert (Hin : within [t] input) by (eapply within_trans; eauto).
  destruct t; cbn; auto; now apply from_user.
Qed.
Lemma A_word s : existsb (String.eqb s) macro_words = true -> each Q (word s).
Proof.
  intros H. cbn. apply from_macro. apply existsb_exists in H. destruct H as (x & Hx & He).
  apply String.eqb_eq in He. now subst.
Qed.
Definition text (s : string) : Prop := exists w, written_name input w /\ s = name_text w.
Definition ident_text (s : string) : Prop := exists w, written_name input w /\ s = snake_name (name_text w).
Lemma text_ident s : text s -> ident_text (snake_name s).
Proof. intros (w & Hw & ->). now exists w. Qed.
Lemma A_ident_text b s : ident_text s -> each Q (TIdent (Id b s)).
Proof. intros (w & Hw & ->). cbn. now apply from_name. Qed.
Lemma A_name k i : text (k_repr k) -> name_ident_ok k i -> each Q (TIdent i).
Proof. intros Hk [_ ->]. now apply A_ident_text, text_ident. Qed.
Lemma A_text s : text s -> each Q (str s).
Proof. intros H. cbn. apply (from_names input [s]); [discriminate|]. constructor; auto. Qed.
Lemma name_written ts k f : name ts k f -> within ts input -> text (k_repr k).
Proof. intros (Hn & _ & _ & ->) H. exists ts. split; [split|]; auto. Qed.

(** ** The tree *)

Definition Ov (v : value) : Prop := forall ts, value_code v ts -> A ts.
Definition Ok (k : kebab_or_str) : Prop :=
  match k with KKebab k => text (k_repr k) | KStr s => each Q (str s) end.
Definition Oa (a : attr) : Prop :=
  match a with
  | AKv a => text (k_repr (kv_key a)) /\ Ov (kv_value a)
  | ADir d => Ok (d_key d) /\ forall v, d_value d = Some v -> Ov v
  | ASpread ts => A ts
  end.
Definition Os (s : selector) : Prop := match s with SelClass k | SelId k => text (k_repr k) end.
Definition Oseg (s : path_seg) : Prop := ident_text (i_name (seg_ident s)) /\ each Q (TIdent (seg_ident s)) /\ A (seg_generics s).
Definition Ot (t : tag) : Prop :=
  match t with
  | TagHtml i | TagSvg i | TagMath i => each Q (TIdent i)
  | TagComponent p => Forall Oseg (segs p)
  | TagWeb k => text (k_repr k)
  end.

Ltac words := repeat first
  [ apply all_nil
  | (apply all_cons; split)
  | (apply all_app; split)
  | (apply each_group)
  | (apply A_word; reflexivity)
  | exact I
  | assumption ].

Lemma value_origin ts v f : within ts input -> value_phrase ts v f -> Ov v.
Proof.
  intros HL H. revert HL. destruct H as [k s ?|sp k s ? Hk|?|?|x ?|x ?|i x ?]; intros HL code Hc; inversion Hc; subst.
  - now apply A_user.
  - words. cbn. apply (from_minus input sp). exact HL.
  - words.
  - words.
  - now apply A_user.
  - unfold bars. words. apply A_user. eapply within_inner; [|exact HL]. now left.
  - unfold bars, abs_path, dcolon. words. apply A_user. eapply within_inner; [|exact HL]. right. now left.
Qed.
Lemma opt_value_origin ts v f : within ts input -> opt_value ts v f -> forall x, v = Some x -> Ov x.
Proof.
  intros HL H x ->. inversion H; subst. eapply value_origin; [|eassumption].
  apply (within_part [TPunct "=" sp] _ []). now rewrite app_nil_r.
Qed.
Lemma shorthand_origin ts k v : within ts input -> shorthand ts k v -> text (k_repr k) /\ Ov v.
Proof.
  intros HL H. revert HL. destruct H as [inner k' i Hn Hi]. intros HL. assert (Hin : within inner input) by (eapply within_inner; [|exact HL]; now left).
  assert (Ht := name_written _ _ _ Hn Hin). split; auto. intros code Hc. inversion Hc; subst. words. eapply A_name; eauto.
Qed.
Lemma part_l a b : within (a ++ b) input -> within a input.
Proof. apply (within_part []). Qed.
Lemma part_r a b : within (a ++ b) input -> within b input.
Proof. intros H. apply (within_part a b []). now rewrite app_nil_r. Qed.
Lemma key_origin ts k f : within ts input -> key_phrase ts k f -> Ok k.
Proof.
  intros HL H. revert HL. destruct H as [s ?|x k' ? Hn]; intros HL; cbn [Ok].
  - cbn. now apply from_user.
  - eapply name_written; eauto.
Qed.
Lemma attr_origin ts a f : within ts input -> attr_phrase ts a f -> Oa a.
Proof.
  intros HL H. revert HL. destruct H as [ts1 k ts2 v ? Hn Hv Hc|x k v ? Hs|sp x ?|i sp ks k ms m vs v ? Hk Hm Hv|i sp ks k v ms m ? Hs Hm]; intros HL;
    cbn [Oa kv_key kv_value d_key d_value].
  - split; [eapply name_written; [exact Hn|eapply part_l; eauto]|]. destruct v as [v|].
    + eapply opt_value_origin; [|exact Hv|reflexivity]. eapply part_r; eauto.
    + intros code Hcode. inversion Hcode; subst. words.
  - eapply shorthand_origin; eauto.
  - apply A_user. apply (part_r [TPunct "." Joint; TPunct "." sp]). eapply within_inner; [|exact HL]. now left.
  - apply (part_r [TIdent i; TPunct ":" sp]) in HL. split.
    + eapply key_origin; [|exact Hk]. eapply part_l; eauto.
    + eapply opt_value_origin; [|exact Hv]. eapply part_r, part_r; eauto.
  - apply (part_r [TIdent i; TPunct ":" sp]) in HL. apply part_l in HL.
    destruct (shorthand_origin _ _ _ HL Hs) as [H1 H2]. split; auto. intros x Hx. inversion Hx; now subst.
Qed.
Lemma selector_origin ts s f : within ts input -> selector_phrase ts s f -> Os s.
Proof.
  intros HL H. revert HL. destruct H as [sp z k ? Hn|sp z k ? Hn]; intros HL; cbn [Os]; (eapply name_written; [exact Hn|]).
  - now apply (part_r [TPunct "." sp]).
  - now apply (part_r [TPunct "#" sp]).
Qed.
Lemma within_wf ts : within ts input -> wf ts.
Proof.
  revert Hwf. intros Hw H. induction H as [pre post|pre d inner post H IH]; apply wf_app in Hw; destruct Hw as [_ Hw].
  - now apply wf_app in Hw.
  - apply IH. apply wf_cons in Hw. destruct Hw as [Hw _]. now apply wf_group in Hw.
Qed.
Lemma segment_origin ts s f : within ts input -> segment_phrase E ts s f -> Oseg s.
Proof.
  intros HL H. inversion H; subst; unfold Oseg; cbn [seg_generics seg_args seg_ident];
    (assert (Hi : within [TIdent i] input) by (eapply (part_l [TIdent i]); exact HL));
    (assert (Hw : wf_ident i) by (apply within_wf in Hi; apply wf_cons in Hi; exact (proj1 Hi)));
    (split; [exists [TIdent i]; split; [split; [|exact Hi]; apply (name_ident i [] false); constructor|];
             cbn; rewrite append_nil; symmetry; apply snake_ident, Hw|]);
    (split; [cbn; now apply from_user|]); try apply all_nil; try apply A_user.
  - now apply (part_r [TIdent i]).
  - now apply (part_r [TIdent i; TPunct ":" Joint; TPunct ":" sp]).
Qed.
Lemma segments_origin ts l f : within ts input -> segments_phrase E ts l f -> Forall Oseg l.
Proof.
  intros HL H. induction H as [x s f Hs Hf|x s sp y l f Hs H IH].
  - constructor; auto. eapply segment_origin; eauto.
  - constructor; [eapply segment_origin; [|exact Hs]; eapply part_l; eauto|]. apply IH.
    apply part_r in HL. now apply (part_r [TPunct ":" Joint; TPunct ":" sp]) in HL.
Qed.
Lemma tag_origin ts t f : within ts input -> tag_phrase E ts t f -> Ot t.
Proof.
  intros HL H. inversion H as [? p ? Hpf Hp|? k i ? Hpf Hn Hk Hi|? k i ? Hpf Hn Hk Hi|? k i ? Hpf Hn Hk Hi|? k i ? Hpf Hn Hk Hi|? k ? Hpf Hn Hk];
    subst; cbn [Ot]; try (eapply A_name; [|exact Hi]; eapply name_written; eauto).
  - inversion Hp as [? l ? Hs|sp x l ? Hs]; subst; cbn [segs]; (eapply segments_origin; [|exact Hs]); auto.
    now apply (part_r [TPunct ":" Joint; TPunct ":" sp]) in HL.
  - constructor; [|constructor]. unfold Oseg. cbn [seg_ident seg_generics seg_args i_name].
    assert (Ht : ident_text (i_name i)).
    { destruct Hi as [_ ->]. apply text_ident. eapply name_written; eauto. }
    split; auto. split; [now apply A_ident_text|apply all_nil].
  - eapply name_written; eauto.
Qed.
Definition Otree := tree Ot Os Oa A Ov.
Definition Oelem := tree_elem Ot Os Oa A Ov.
Lemma tree_origin cs : children_phrase E input cs -> Forall Otree cs.
Proof.
  intros H. apply (phrase_tree Ot Os Oa A Ov E L) with (n := S (size input)) (ts := input); auto.
  - intros a x b. apply within_part.
  - intros d inner ts Hin HL. eapply within_inner; eauto.
  - intros ts t f. apply tag_origin.
  - intros ts s f. apply selector_origin.
  - intros ts a f. apply attr_origin.
  - intros sp args sp' HL _. words. apply A_user. apply (within_part [TPunct "|" sp] _ [TPunct "|" sp']). exact HL.
  - intros ts v f HL Hv _. eapply value_origin; eauto.
  - apply within_refl.
Qed.

(** ** The code *)

Definition call_origin (c : call) : Prop := each Q (TIdent (call_name c)) /\ A (call_args c).
Lemma A_dcolon : A dcolon. Proof. unfold dcolon. words. Qed.
Lemma A_path l : forallb (fun s => existsb (String.eqb s) macro_words) l = true -> A (abs_path l).
Proof.
  induction l as [|s l IH]; cbn [forallb abs_path]; intros H; [apply all_nil|]. apply andb_true_iff in H.
  apply all_app. split; [apply A_dcolon|]. apply all_cons. split; [now apply A_word|now apply IH].
Qed.
Lemma A_tachys l : forallb (fun s => existsb (String.eqb s) macro_words) l = true -> A (tachys_html l).
Proof. intros H. apply A_path. cbn [forallb]. now rewrite H. Qed.
Lemma A_chain l : Forall call_origin l -> A (chain l).
Proof.
  intros H. apply all_concat. apply Forall_map. eapply Forall_impl; [|exact H]. intros c [H1 H2].
  unfold call_tokens. words.
Qed.
Ltac pieces := repeat first
  [ assumption
  | apply all_nil
  | apply A_dcolon
  | (apply A_path; reflexivity)
  | (apply A_tachys; reflexivity)
  | (apply all_cons; split)
  | (apply all_app; split)
  | (apply each_group)
  | (apply A_word; reflexivity)
  | exact I
  | (eapply A_name; eassumption)
  | (apply A_text; assumption) ].
Lemma plain_origin s args : existsb (String.eqb s) macro_words = true -> A args -> call_origin (plain_call s args).
Proof. intros H Ha. split; auto. now apply A_word. Qed.
Lemma calls_origin {X} (R : X -> call -> Prop) l calls : Forall2 R l calls ->
  (forall x c, In x l -> R x c -> call_origin c) -> Forall call_origin calls.
Proof. induction 1 as [|x c l cs Hx H IH]; intros Hc; constructor; [eapply Hc; eauto; now left|]. apply IH. intros; eapply Hc; eauto. now right. Qed.
Lemma codes_origin {X} (R : X -> list tt -> Prop) l codes : Forall2 R l codes ->
  (forall x c, In x l -> R x c -> A c) -> Forall A codes.
Proof. induction 1 as [|x c l cs Hx H IH]; intros Hc; constructor; [eapply Hc; eauto; now left|]. apply IH. intros; eapply Hc; eauto. now right. Qed.
Lemma comma_ended_origin l : Forall A l -> A (comma_ended l).
Proof. intros H. apply all_concat, Forall_map. eapply Forall_impl; [|exact H]. intros x Hx. pieces. Qed.
Lemma comma_separated_origin l : Forall A l -> A (comma_separated l).
Proof.
  induction 1 as [|x l Hx H IH]; [apply all_nil|]. destruct l as [|y l]; [exact Hx|].
  change (A (x ++ sym "," :: comma_separated (y :: l))). pieces.
Qed.
Lemma rendered_origin c : A c -> A (rendered c).
Proof. intros H. unfold rendered. pieces. Qed.
Lemma fragment_origin l : Forall A l -> A (fragment l).
Proof. intros H. unfold fragment. pieces. now apply comma_ended_origin. Qed.
Lemma opt_code_origin v ts : (forall x, v = Some x -> Ov x) -> opt_value_code v ts -> A ts.
Proof. intros H Hc. inversion Hc; subst; [apply all_nil|]. now apply (H v0). Qed.
Lemma or_true_origin v ts : (forall x, v = Some x -> Ov x) -> value_or_true_code v ts -> A ts.
Proof. intros H Hc. inversion Hc; subst; [pieces|]. now apply (H v0). Qed.
Lemma event_origin k m ev : Ok k -> event_code k m ev -> A ev.
Proof. intros Hk H. inversion H; subst; cbn [Ok] in Hk; pieces. Qed.
Lemma use_origin k v ts : Ok k -> (forall x, v = Some x -> Ov x) -> use_code k v ts -> A ts.
Proof. intros Hk Hv H. inversion H; subst; cbn [Ok] in Hk; pieces. now apply (Hv v0). Qed.
Lemma key_text_origin k : Ok k -> each Q (str (key_text k)).
Proof. destruct k as [k|s]; cbn [Ok key_text]; auto. apply A_text. Qed.
Lemma html_attr_origin t a c : Oa (AKv a) -> html_attr_call t a c -> call_origin c.
Proof.
  intros [Hk Hv] H. inversion H; subst; try (apply plain_origin; [reflexivity|]).
  - now apply Hv.
  - pieces. now apply Hv.
  - split; [eapply A_name; eauto|now apply Hv].
Qed.
Lemma html_dir_origin d c : Oa (ADir d) -> html_dir_call d c -> call_origin c.
Proof.
  intros [Hk Hv] H. inversion H; subst; cbn [d_key d_value] in *; assert (Hs := key_text_origin _ Hk).
  - assert (Ha := opt_code_origin _ _ Hv H1). apply plain_origin; [destruct H0; subst; reflexivity|pieces].
  - assert (Ha := opt_code_origin _ _ Hv H0). apply plain_origin; [reflexivity|pieces].
  - assert (Ha := opt_code_origin _ _ Hv H1). assert (He := event_origin _ _ _ Hk H0). apply plain_origin; [reflexivity|pieces].
  - assert (Ha := use_origin _ _ _ Hk Hv H0). apply plain_origin; [reflexivity|pieces].
Qed.
Lemma name_block_origin k : text (k_repr k) -> each Q (name_block k).
Proof.
  intros H. unfold name_block. pieces. apply all_concat. apply Forall_forall. intros x Hx. apply repeat_spec in Hx. subst. pieces.
Qed.
Lemma entry_origin a c : Oa a -> entry_code a c -> A c.
Proof.
  intros Ha H. inversion H; subst; cbn [Oa] in Ha; auto; destruct Ha as [Hk Hv]; cbn [d_key d_value] in *;
    assert (Hs := key_text_origin _ Hk).
  - assert (Hc := or_true_origin _ _ Hv H1). destruct H0; subst; pieces.
  - assert (Hc := or_true_origin _ _ Hv H1).
    destruct H0; subst; pieces; cbn; apply from_macro_raw; cbn; auto.
  - assert (Hc := or_true_origin _ _ Hv H1). pieces.
  - assert (Hc := or_true_origin _ _ Hv H4). cbn [Ok] in Hk. pieces.
  - assert (Hc := or_true_origin _ _ Hv H1). cbn [Ok] in Hk. pieces.
  - assert (Hc := opt_code_origin _ _ Hv H1). assert (He := event_origin _ _ _ Hk H0). pieces.
  - assert (Hc := use_origin _ _ _ Hk Hv H0). pieces.
Qed.
Lemma clone_origin d c : Oa (ADir d) -> clone_code d c -> A c.
Proof. intros [Hk _] H. inversion H; subst; cbn [d_key Ok] in *. pieces. Qed.
Lemma seg_code_origin s c : Oseg s -> seg_code s c -> A c.
Proof. intros (_ & H1 & H2) H. inversion H; subst; cbn [seg_ident seg_generics seg_args] in *; pieces. Qed.
Lemma segs_code_origin l c : Forall Oseg l -> segs_code l c -> A c.
Proof.
  intros Hl H. induction H; [apply all_nil| |]; inversion Hl; subst.
  - eapply seg_code_origin; eauto.
  - pieces; [eapply seg_code_origin; eauto|auto].
Qed.
Lemma path_code_origin p c : Ot (TagComponent p) -> path_code p c -> A c.
Proof. cbn [Ot]. intros Ht H. inversion H; subst; cbn [segs] in *; pieces; eapply segs_code_origin; eauto. Qed.
Lemma head_origin t c : Ot t -> html_head t c -> A c.
Proof. intros Ht H. inversion H; subst; cbn [Ot] in *; pieces. Qed.
Lemma selector_entries_origin l : Forall Os l -> Forall A (selector_entries l).
Proof.
  intros H. unfold selector_entries. apply Forall_app. split.
  - apply Forall_map. induction H as [|[k|k] l Hs H IH]; cbn [classes_of]; auto. constructor; auto.
    unfold class_entry. cbn [Os] in Hs. pieces.
  - assert (Hi : Forall (fun k => text (k_repr k)) (ids_of l)).
    { induction H as [|[k|k] l Hs H IH]; cbn [ids_of]; auto. }
    unfold id_entries. destruct (ids_of l) as [|k ks]; [constructor|]. constructor; [|constructor].
    pieces; cbn [each]; [apply from_macro_raw; cbn; auto|]. apply from_names; [discriminate|].
    apply Forall_map. exact Hi.
Qed.
Lemma children_calls_origin args clones codes : (forall a, args = Some a -> A a) -> Forall A clones -> Forall A codes ->
  Forall call_origin (children_calls args clones codes).
Proof.
  intros Ha Hc Hk. unfold children_calls. destruct codes as [|c codes]; [constructor|]. constructor; [|constructor].
  apply plain_origin; [reflexivity|]. assert (Hf := fragment_origin _ Hk). apply all_concat in Hc.
  destruct args as [a|]; [specialize (Ha a eq_refl)|]; unfold bars; pieces.
Qed.
Lemma slot_arg_origin l : Forall A l -> A (slot_arg l).
Proof.
  intros H. assert (Hs := comma_separated_origin _ H). unfold slot_arg. destruct l as [|c [|c' l]].
  - pieces.
  - now inversion H.
  - pieces.
Qed.
Lemma slot_calls_origin slots calls : slot_calls slots calls ->
  Forall (fun p => ident_text (i_name (fst p)) /\ A (snd p)) slots -> Forall call_origin calls.
Proof.
  intros [order cs Hn Hin H] Hs. apply (calls_origin _ _ _ H). intros i c Hi Hx.
  inversion Hx as [j m Hm Hr]; subst. split; cbn [call_name call_args].
  - apply Hin in Hi. apply in_map_iff in Hi. destruct Hi as (p & <- & Hp).
    apply (proj1 (Forall_forall _ _) Hs) in Hp. destruct Hp as [(w & Hw & Ht) _]. rewrite Ht in Hm.
    cbn. eapply from_slot; eauto.
  - apply slot_arg_origin. unfold slots_named. apply Forall_map. apply Forall_forall. intros p Hp.
    apply filter_In in Hp. destruct Hp as [Hp _]. apply (proj1 (Forall_forall _ _) Hs) in Hp. apply Hp.
Qed.
Lemma component_frame_origin path calls entries : A path -> Forall call_origin calls -> Forall A entries ->
  A (component_frame path calls entries).
Proof.
  intros Hp Hc He. unfold component_frame. assert (Hee := comma_ended_origin _ He). pieces.
  apply A_chain, Forall_app. split; auto. constructor; [|constructor]. apply plain_origin; [reflexivity|pieces].
Qed.
Lemma slot_frame_origin path calls : A path -> Forall call_origin calls -> A (slot_frame path calls).
Proof.
  intros Hp Hc. unfold slot_frame. pieces.
  apply A_chain, Forall_app. split; auto. constructor; [|constructor]. apply plain_origin; [reflexivity|pieces].
Qed.
Lemma nodes_origin l codes : Forall2 node_code (non_slots l) codes ->
  (forall c, In c l -> Otree c) -> (forall e c, In (CElement e) l -> element_code e c -> A c) -> Forall A codes.
Proof.
  intros H Ht He. apply (codes_origin _ _ _ H). intros x c Hin Hx.
  destruct Hx as [v ts Hv|e ts Hx]; apply rendered_origin.
  - assert (Hi : In (CValue v) l).
    { clear - Hin. induction l as [|[y|y|y] l IH]; cbn in *; auto; destruct Hin as [Hin|Hin]; auto; discriminate Hin. }
    apply Ht in Hi. inversion Hi; subst. auto.
  - apply (He e); auto. now apply non_slots_in_element.
Qed.
Lemma kv_in a attrs : Forall Oa attrs -> In a (kvs_of attrs) -> Oa (AKv a).
Proof. intros H Hin. rewrite <- kvs_of_in in Hin. exact (proj1 (Forall_forall _ _) H _ Hin). Qed.
Lemma out_origin e : Oelem e ->
  (forall code, element_code e code -> A code) /\ (forall code, slot_code e code -> A code).
Proof.
  induction e as [t sels attrs args ch IHe IHs] using element_children_ind. intros Ho.
  inversion Ho as [? ? ? ? ? Ht Hs Ha Hr Hc]; subst.
  assert (Hnodes : forall codes, Forall2 node_code (non_slots (child_list ch)) codes -> Forall A codes).
  { intros codes Hn. apply (nodes_origin _ _ Hn Hc). intros e c Hin Hx. refine (proj1 (IHe e Hin _) c Hx).
    apply Hc in Hin. now inversion Hin. }
  assert (Hprops : forall props, Forall2 prop_call (kvs_of attrs) props -> Forall call_origin props).
  { intros props Hp. apply (calls_origin _ _ _ Hp). intros a c Hin Hx. apply (kv_in _ _ Ha) in Hin. destruct Hin as [Hk Hv].
    inversion Hx; subst. split; [eapply A_name; eauto|now apply Hv]. }
  assert (Hclones : forall clones, Forall2 clone_code (clones_of attrs) clones -> Forall A clones).
  { intros clones Hp. apply (codes_origin _ _ _ Hp). intros d c Hin Hx. apply clones_of_in in Hin.
    apply (clone_origin d); auto. exact (proj1 (Forall_forall _ _) Ha _ Hin). }
  split; intros code H.
  - destruct t as [i|p|i|i|k].
    2: { apply component_code in H.
      destruct H as (path & props & entries & clones & codes & slots & scalls & Hp & H1 & H2 & H3 & H4 & H5 & H6 & ->).
      apply component_frame_origin.
      - eapply path_code_origin; eauto.
      - rewrite !Forall_app. split; [auto|]. split; [apply children_calls_origin; auto|].
        apply (slot_calls_origin _ _ H6). clear - H5 IHs Hc.
        revert H5. generalize slots. assert (Hx : forall e, In (CSlot e) (child_list ch) -> Oelem e /\ forall code, slot_code e code -> A code).
        { intros e Hin. assert (Hi := Hc _ Hin). inversion Hi; subst. split; auto. refine (proj2 (IHs e Hin _)). auto. }
        clear - Hx. induction (child_list ch) as [|c l IH]; intros slots H; inversion H; subst; try constructor;
          try (apply IH; auto; intros; apply Hx; now right).
        destruct (Hx e (or_introl eq_refl)) as [He Hcode]. split; [|auto].
        inversion He as [t ? ? ? ? Ht]; subst. cbn [el_tag] in *. subst. cbn [Ot segs fst] in *.
        inversion Ht as [|? ? (Hi & _)]; subst. exact Hi.
      - apply Forall_app. split; [now apply selector_entries_origin|]. apply (codes_origin _ _ _ H2).
        intros a c Hin Hx. apply (entry_origin a); auto. apply entries_of_in in Hin. exact (proj1 (Forall_forall _ _) Ha _ Hin). }
    all: apply html_code in H; [|intros p Hx; discriminate Hx]; destruct H as (head & kvs & dirs & codes & Hh & Hk & Hd & Hn & ->);
      apply all_app; (split; [eapply head_origin; eauto|]); apply A_chain; rewrite !Forall_app;
      (split; [apply (calls_origin _ _ _ Hk); intros a c Hin Hx; apply (kv_in _ _ Ha) in Hin; eapply html_attr_origin; eauto|]);
      (split; [apply (calls_origin _ _ _ Hd); intros d c Hin Hx; rewrite <- dirs_of_in in Hin; eapply html_dir_origin; eauto;
               exact (proj1 (Forall_forall _ _) Ha _ Hin)|]);
      (split; [apply Forall_map; clear - Hs; induction Hs as [|[x|x] l Hx Hs IH]; cbn [classes_of]; auto; constructor; auto;
               apply plain_origin; [reflexivity|]; cbn [Os] in Hx; apply name_block_origin in Hx; pieces|]);
      (split; [apply Forall_map; clear - Hs; induction Hs as [|[x|x] l Hx Hs IH]; cbn [ids_of]; auto; constructor; auto;
               apply plain_origin; [reflexivity|]; cbn [Os] in Hx; apply name_block_origin in Hx; pieces|]);
      (split; [apply Forall_map; apply Forall_forall; intros x Hx; apply plain_origin; [reflexivity|];
               rewrite <- spreads_of_in in Hx; exact (proj1 (Forall_forall _ _) Ha _ Hx)|]);
      apply Forall_map; (eapply Forall_impl; [|exact (Hnodes _ Hn)]); intros x Hx; (apply plain_origin; [reflexivity|auto]).
  - apply slot_code_inv in H. destruct H as (p & path & props & clones & codes & -> & -> & He & Hp & H1 & H3 & H4 & ->).
    apply slot_frame_origin; [eapply path_code_origin; eauto|]. apply Forall_app. split; [auto|apply children_calls_origin; auto].
Qed.
Theorem view_origin cs out : children_phrase E input cs -> root_code cs out -> A out.
Proof.
  intros Hc H. apply tree_origin in Hc.
  assert (Hall : forall c, In c cs -> Otree c) by (now apply Forall_forall).
  assert (He : forall e c, In (CElement e) cs -> element_code e c -> A c).
  { intros e c Hin Hx. apply Hall in Hin. inversion Hin as [|? Ho|]; subst. exact (proj1 (out_origin e Ho) c Hx). }
  inversion H as [c code Hs Hn|cs' codes Hl Hs Hn]; subst; unfold root_frame.
  - apply nodes_each in Hn. apply (nodes_origin _ _ Hn Hall) in He. inversion He; subst. pieces.
  - apply nodes_each in Hn. apply (nodes_origin _ _ Hn Hall) in He. apply fragment_origin in He. pieces.
Qed.
End Origin.
