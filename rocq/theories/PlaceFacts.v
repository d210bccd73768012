(** A computable check that a place in a view is what it should be.  Used by
    examples only. *)
From Verif Require Export ExampleFacts SpecContext.
From Verif Require Import GrammarFacts GrammarFacts2 TagFacts ElementFacts Inv Fuel Monad.
From Coq Require Import Lia.
Open Scope list_scope.

Lemma same_tail {A} (u u' f r : list A) : u ++ f = u' ++ r -> List.length r = List.length f -> u = u' /\ f = r.
Proof.
  intros H Hl. assert (Hu : List.length u = List.length u').
  { apply (f_equal (@List.length A)) in H. rewrite !app_length in H. lia. }
  revert u' H Hu. induction u as [|a u IH]; intros [|b u'] H Hu; cbn in *; try discriminate; auto.
  inversion H; subst. destruct (IH u') as [-> ->]; auto.
Qed.

Definition childrenb (E : env) (ts : list tt) : bool :=
  match parse_children E (S (size ts)) ts with PR (Ret _) [] [] => true | _ => false end.
Lemma childrenb_ok E ts : env_ok E -> wf ts -> childrenb E ts = true -> exists cs, children_phrase E ts cs.
Proof.
  unfold childrenb. intros HE Hwf H. destruct (parse_children E _ ts) as [[cs| | | |] [|] [|]] eqn:Hp; try discriminate.
  apply parse_children_ok in Hp; auto. destruct Hp; eauto.
Qed.

Definition lenb (a b : list tt) : bool := Nat.eqb (List.length a) (List.length b).
Fixpoint runb (n : nat) (ts f : list tt) : bool :=
  lenb ts f ||
  match n, parse_attr ts with
  | S n, PR (Ret _) r [] => runb n r f
  | _, _ => false
  end.
Lemma runb_ok n ts f : wf ts -> runb n ts f = true ->
  (exists u0, u0 ++ f = ts) \/ List.length ts < List.length f ->
  exists u attrs, ts = u ++ f /\ attr_run u attrs f.
Proof.
  revert ts. induction n as [|n IH]; intros ts Hwf H Hs; cbn [runb] in H; apply Bool.orb_prop in H; destruct H as [H|H]; try discriminate.
  1,2: apply Nat.eqb_eq in H; destruct Hs as [[u0 <-]|Hs]; [|lia]; rewrite app_length in H; destruct u0; [|cbn in H; lia];
    exists [], []; split; [reflexivity|constructor].
  destruct (parse_attr ts) as [[a| | | |] r [|]] eqn:Hp; try discriminate.
  apply parse_attr_ok in Hp; auto. destruct Hp as (u & -> & Hu).
  apply wf_app in Hwf. destruct Hwf as [_ Hwf].
  destruct (IH r Hwf H) as (u' & attrs & -> & Hr).
  - destruct Hs as [[u0 Hu0]|Hs]; [|right; rewrite app_length in Hs; lia].
    destruct (Nat.le_gt_cases (List.length u) (List.length u0)) as [Hl|Hl].
    + left. clear - Hu0 Hl. revert u0 Hu0 Hl. induction u as [|x u IH]; intros u0 Hu0 Hl; cbn in *; [eauto|].
      destruct u0 as [|y u0]; cbn in *; [lia|]. inversion Hu0; subst. apply (IH u0); auto; lia.
    + right. apply (f_equal (@List.length tt)) in Hu0. rewrite !app_length in Hu0. lia.
  - exists (u ++ u'), (a :: attrs). split; [now rewrite app_assoc|]. now constructor.
Qed.

Definition endsb {A} (x : pres A) (f : list tt) : bool :=
  match x with PR (Ret _) r [] => lenb r f | _ => false end.
Definition open_headb (E : env) (u f : list tt) : bool :=
  match parse_tag E (u ++ f) with
  | PR (Ret _) r [] =>
      match parse_selectors r with
      | PR (Ret _) r2 [] => Nat.leb (List.length f) (List.length r2) && runb (List.length r2) r2 f
      | _ => false
      end
  | _ => false
  end.
Lemma long_tail {A} (u f v r : list A) : u ++ f = v ++ r -> List.length f <= List.length r ->
  exists w, u = v ++ w /\ r = w ++ f.
Proof.
  revert u. induction v as [|x v IH]; intros u H Hl; cbn in *.
  - exists u. auto.
  - destruct u as [|y u]; cbn in *.
    + subst f. cbn in Hl. rewrite app_length in Hl. lia.
    + inversion H; subst. destruct (IH u) as (w & -> & ->); auto. exists w. auto.
Qed.
Lemma open_headb_ok E u f : env_ok E -> wf (u ++ f) -> open_headb E u f = true ->
  exists t sels attrs, open_head E u t sels attrs f.
Proof.
  unfold open_headb. intros HE Hwf H.
  destruct (parse_tag E (u ++ f)) as [[t| | | |] r [|]] eqn:Ht; try discriminate.
  apply parse_tag_ok in Ht; auto. destruct Ht as (u1 & Hu1 & Ht). rewrite Hu1 in Hwf. apply wf_app in Hwf. destruct Hwf as [_ Hwf].
  destruct (parse_selectors r) as [[sels| | | |] r2 [|]] eqn:Hs; try discriminate.
  apply parse_selectors_ok in Hs; auto. destruct Hs as (u2 & -> & Hs). apply wf_app in Hwf. destruct Hwf as [_ Hwf].
  apply andb_prop in H. destruct H as [Hl H]. apply Nat.leb_le in Hl.
  destruct (long_tail u f (u1 ++ u2) r2) as (w & Hw & ->); auto; [now rewrite <- app_assoc|].
  destruct (runb_ok _ _ _ Hwf H) as (w' & attrs & Hw' & Hr); [left; eauto|].
  apply app_inv_tail in Hw'. subst w' u.
  exists t, sels, attrs, u1, u2, w. rewrite <- app_assoc. auto.
Qed.

Definition elem_headb (E : env) (u f : list tt) : bool :=
  match parse_tag E (u ++ f) with
  | PR (Ret _) r [] =>
      match parse_selectors r with
      | PR (Ret _) r2 [] => endsb (parse_attrs r2) f
      | _ => false
      end
  | _ => false
  end.
Lemma elem_headb_ok E u f : env_ok E -> wf (u ++ f) -> elem_headb E u f = true ->
  exists t sels attrs, elem_head E u t sels attrs f.
Proof.
  unfold elem_headb. intros HE Hwf H.
  destruct (parse_tag E (u ++ f)) as [[t| | | |] r [|]] eqn:Ht; try discriminate.
  apply parse_tag_ok in Ht; auto. destruct Ht as (u1 & Hu1 & Ht). rewrite Hu1 in Hwf. apply wf_app in Hwf. destruct Hwf as [_ Hwf].
  destruct (parse_selectors r) as [[sels| | | |] r2 [|]] eqn:Hs; try discriminate.
  apply parse_selectors_ok in Hs; auto. destruct Hs as (u2 & -> & Hs). apply wf_app in Hwf. destruct Hwf as [_ Hwf].
  unfold endsb in H. destruct (parse_attrs r2) as [[attrs| | | |] r3 [|]] eqn:Ha; try discriminate.
  apply parse_attrs_ok in Ha; auto. destruct Ha as (u3 & -> & Ha). apply Nat.eqb_eq in H.
  destruct (same_tail u (u1 ++ u2 ++ u3) f r3) as [-> ->]; auto; [now rewrite Hu1, <- !app_assoc|].
  exists t, sels, attrs, u1, u2, u3. auto.
Qed.
Definition open_tagb (E : env) (u f : list tt) : bool :=
  match parse_tag E (u ++ f) with PR (Ret _) r [] => lenb r f | _ => false end.
Lemma open_tagb_ok E u f : env_ok E -> wf (u ++ f) -> open_tagb E u f = true ->
  exists t sels, open_tag E u t sels f.
Proof.
  unfold open_tagb. intros HE Hwf H.
  destruct (parse_tag E (u ++ f)) as [[t| | | |] r [|]] eqn:Ht; try discriminate.
  apply parse_tag_ok in Ht; auto. destruct Ht as (u1 & Hu1 & Ht). apply Nat.eqb_eq in H.
  destruct (same_tail u u1 f r Hu1 H) as [-> ->].
  exists t, [], u1, []. rewrite app_nil_r. split; [reflexivity|]. split; [exact Ht|constructor].
Qed.

Definition slotb (ts : list tt) : bool :=
  match ts with
  | TIdent (Id false s) :: TPunct c sp :: r =>
      String.eqb s "slot" && Ascii.eqb c ":" &&
      negb (match sp, r with Joint, TPunct c' _ :: _ => Ascii.eqb c' ":" | _, _ => false end)
  | _ => false
  end.
Lemma slotb_ok ts : slotb ts = true <-> slot_prefix ts.
Proof.
  unfold slotb, slot_prefix. split.
  - destruct ts as [|[[[] s]| | |] [|[|c sp| |] r]]; try discriminate. intros H.
    apply andb_prop in H. destruct H as [H Hn]. apply andb_prop in H. destruct H as [Hs Hc].
    apply String.eqb_eq in Hs. apply Ascii.eqb_eq in Hc. subst. exists sp, r. split; [reflexivity|].
    intros [-> Hp]. destruct r as [|t r]; [exact Hp|]. destruct t as [|c' sp''| |]; destruct Hp as (sp0 & Hp); try discriminate.
    inversion Hp; subst. discriminate.
  - intros (sp & r & -> & Hn). cbn. destruct sp; [reflexivity|].
    destruct r as [|[|c' sp''| |] r]; auto. destruct (Ascii.eqb c' ":") eqn:Hc; [|reflexivity].
    exfalso. apply Hn. split; [reflexivity|]. apply Ascii.eqb_eq in Hc. subst. cbn. now exists sp''.
Qed.

Definition opensb (slot : option spacing) (ts : list tt) : bool :=
  match slot with
  | Some _ => slotb (slot_tokens slot ++ ts)
  | None => match ts with TIdent _ :: _ => true | _ => false end && negb (slotb ts) &&
            match parse_value ts with PR (Fail _) _ _ => true | _ => false end
  end.
Lemma opensb_ok slot ts : opensb slot ts = true -> opens slot ts.
Proof.
  unfold opensb, opens. destruct slot as [sp|]; [apply slotb_ok|]. intros H.
  apply andb_prop in H. destruct H as [H Hv]. apply andb_prop in H. destruct H as [Hi Hs].
  split; [now destruct ts as [|[]]|]. split.
  - rewrite <- slotb_ok. now destruct (slotb ts).
  - intros (v & u & r & -> & Hp). assert (Hok : parse_value on (u ++ r) >> v, r) by (apply parse_value_ok; eauto).
    now rewrite Hok in Hv.
Qed.

Definition args_fineb (args : option (spacing * list tt * spacing)) : bool :=
  match args with
  | Some (_, l, _) => forallb (fun t => match t with TPunct c _ => negb (Ascii.eqb c "|") | _ => true end) l
  | None => true
  end.
Lemma args_fineb_ok args : args_fineb args = true -> args_fine args.
Proof.
  destruct args as [[[sp l] sp']|]; cbn; auto. intros H. rewrite forallb_forall in H. apply Forall_forall.
  intros t Ht Hp. specialize (H t Ht). destruct Hp as (sp0 & ->). discriminate.
Qed.
Fixpoint fitsb (E : env) (k : ctx) (x : list tt) : bool :=
  match k with
  | Hole => true
  | Inside k pre slot u args d post =>
      childrenb E pre && elem_headb E u (args_tokens args ++ TGroup d x :: post) &&
      opensb slot (u ++ args_tokens args ++ TGroup d x :: post) && args_fineb args &&
      match d with Brace | Paren => true | _ => false end &&
      fitsb E k (pre ++ slot_tokens slot ++ u ++ args_tokens args ++ TGroup d x :: post)
  end.
Lemma plug_inner k x : wf (plug k x) -> wf x.
Proof.
  revert x. induction k as [|k IH pre slot u args d post]; intros x H; cbn in H; auto.
  apply IH in H. rewrite !wf_app in H. destruct H as (_ & _ & _ & _ & H). inversion H as [|? ? Hg _]; subst.
  cbn in Hg. clear - Hg. induction x as [|t x IH]; [constructor|]. cbn in Hg. constructor; [tauto|]. apply IH. tauto.
Qed.
Lemma fitsb_ok E k x : env_ok E -> wf (plug k x) -> fitsb E k x = true -> fits E k x.
Proof.
  intros HE. revert x. induction k as [|k IH pre slot u args d post]; intros x Hwf H; cbn [fits fitsb] in *; auto.
  repeat (apply andb_prop in H; destruct H as [H ?]). cbn in Hwf. assert (Hi := plug_inner _ _ Hwf).
  assert (Hu : wf (u ++ args_tokens args ++ TGroup d x :: post)) by (apply wf_app in Hi; destruct Hi as [_ Hi]; apply wf_app in Hi; tauto).
  split; [apply childrenb_ok; auto; rewrite wf_app in Hi; tauto|].
  split; [now apply elem_headb_ok|]. split; [now apply opensb_ok|]. split; [now apply args_fineb_ok|].
  split; [destruct d; auto; discriminate|]. now apply IH.
Qed.

(** The checks for places. *)
Definition at_attrb (E : env) (k : ctx) (pre : list tt) (slot : option spacing) (u x : list tt) : bool :=
  wfb (attr_place k pre slot u x) && childrenb E pre && open_headb E u x && opensb slot (u ++ x) &&
  fitsb E k (pre ++ slot_tokens slot ++ u ++ x).
Lemma at_attrb_ok E k pre slot u x : env_ok E -> at_attrb E k pre slot u x = true ->
  wf (attr_place k pre slot u x) /\ at_attr E k pre slot u x.
Proof.
  intros HE H. unfold at_attrb in H. repeat (apply andb_prop in H; destruct H as [H ?]).
  apply wfb_ok in H. split; [exact H|]. assert (Hi := plug_inner _ _ H).
  assert (Hu : wf (u ++ x)) by (apply wf_app in Hi; destruct Hi as [_ Hi]; apply wf_app in Hi; tauto).
  split; [apply childrenb_ok; auto; rewrite wf_app in Hi; tauto|].
  split; [now apply open_headb_ok|]. split; [now apply opensb_ok|]. now apply fitsb_ok.
Qed.
Definition at_selectorb (E : env) (k : ctx) (pre : list tt) (slot : option spacing) (u x : list tt) : bool :=
  wfb (attr_place k pre slot u x) && childrenb E pre && open_tagb E u x && opensb slot (u ++ x) &&
  fitsb E k (pre ++ slot_tokens slot ++ u ++ x).
Lemma at_selectorb_ok E k pre slot u x : env_ok E -> at_selectorb E k pre slot u x = true ->
  wf (attr_place k pre slot u x) /\ at_selector E k pre slot u x.
Proof.
  intros HE H. unfold at_selectorb in H. repeat (apply andb_prop in H; destruct H as [H ?]).
  apply wfb_ok in H. split; [exact H|]. assert (Hi := plug_inner _ _ H).
  assert (Hu : wf (u ++ x)) by (apply wf_app in Hi; destruct Hi as [_ Hi]; apply wf_app in Hi; tauto).
  split; [apply childrenb_ok; auto; rewrite wf_app in Hi; tauto|].
  split; [now apply open_tagb_ok|]. split; [now apply opensb_ok|]. now apply fitsb_ok.
Qed.
Definition at_childb (E : env) (k : ctx) (pre x : list tt) : bool :=
  wfb (child_place k pre x) && childrenb E pre && fitsb E k (pre ++ x).
Lemma at_childb_ok E k pre x : env_ok E -> at_childb E k pre x = true ->
  wf (child_place k pre x) /\ at_child E k pre x.
Proof.
  intros HE H. unfold at_childb in H. repeat (apply andb_prop in H; destruct H as [H ?]).
  apply wfb_ok in H. split; [exact H|]. assert (Hi := plug_inner _ _ H).
  split; [apply childrenb_ok; auto; rewrite wf_app in Hi; tauto|]. now apply fitsb_ok.
Qed.

(** A place three levels deep. *)
Definition deep (post post' : list tt) : ctx :=
  Inside (Inside Hole (lex "'x'") None (lex "My.c a=1") None Paren post)
         (lex "p;") (Some Alone) (lex "Then") (Some (Alone, lex "x", Alone)) Brace post'.
Lemma name_by ts f k : wfb (ts ++ f) = true -> parse_kebab (ts ++ f) = PR (Ret k) f [] -> name ts k f.
Proof.
  intros Hwf H. apply parse_kebab_ok in H.
  - destruct H as (u & Hu & Hn). apply app_inv_tail in Hu. now subst.
  - now apply wf_wf_head, wfb_ok.
Qed.
