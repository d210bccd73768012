(** Theorem C44: where the identifiers and literals of an expansion come from. *)
From Verif Require Import PropFacts1 CodeFacts ElementFacts Inv Fuel ExampleFacts.
From Verif Require Import OriginFacts Properties2 Properties8.
From Verif Require Import SpecStr SpecGrammar SpecOut SpecRead Lex Macro.
Open Scope list_scope.

(** ** C44: no identifier or literal is invented *)

Theorem C44_origin E input out t : env_ok E -> wf input -> mview E input = Expanded out ->
  within [t] out -> (exists i, t = TIdent i) \/ (exists k s, t = TLit k s) -> origin input t.
Proof.
  intros HE Hw H Hin Ht. destruct (mview_sound E input out HE Hw H) as (cs & Hc & Hr).
  assert (Ha := view_origin E input Hw cs out Hc Hr).
  apply (all_each _ t _ Ha) in Hin.
  - destruct Ht as [(i & ->)|(k & s & ->)]; exact Hin.
  - intros d x ->. destruct Ht as [(i & Hx)|(k & s & Hx)]; discriminate Hx.
Qed.
Print Assumptions C44_origin.

(** An identifier that is not a word of the generated code and not spelled in
    the input (as a name, with [_] for [-]) is not in the expansion, unless it
    is the snake case of a name of the input. *)
Theorem C44_fresh E input out s : env_ok E -> wf input -> mview E input = Expanded out ->
  ~ In s macro_words -> (forall w, written_name input w -> snake_name (name_text w) <> s) ->
  ~ within [word s] out.
Proof.
  intros HE Hw H Hm Hn Hin. apply (C44_origin E input out _ HE Hw H) in Hin; [|left; now exists (Id false s)].
  inversion Hin as [? Hu|? Hx|? Hx|? w Hx|? ? Hx|? ? Hx|? ? ? Hx]; subst; auto.
  - apply (Hn [word s]).
    + split; auto. apply (name_ident _ [] false). constructor.
    + cbn. rewrite append_nil. apply snake_ident.
      apply within_wf in Hu; auto. apply wf_cons in Hu. destruct Hu as [[Hu _] _]. exact Hu.
  - now apply (Hn w).
Qed.
Print Assumptions C44_fresh.

(** The placeholders that stand for what could not be read never get into an
    expansion. *)
Theorem C44_placeholders E input out : env_ok E -> wf input -> mview E input = Expanded out ->
  forall s, In s ["leptos_mview"; "MissingValueAfterEq"; "__invalid_identifier_found_str"; "invalid_event"] ->
  (forall w, written_name input w -> snake_name (name_text w) <> s) -> ~ within [word s] out.
Proof.
  intros HE Hw H s Hs Hn. apply (C44_fresh E input out s HE Hw H); auto.
  intros Hin. cbn in Hs. destruct Hs as [<-|[<-|[<-|[<-|[]]]]]; cbn in Hin; intuition discriminate.
Qed.
Print Assumptions C44_placeholders.

(** Cases: every kind of origin. *)
Definition c44_text : string :=
  "My<u8> #a #b-c .d x-y=-1 attr:class='q' class:'k l'=true {z-z} { {f(2)} Do-It; slot:FooBar; }".
Example C44_case : mview E0 (lex c44_text) = Expanded (out_of (lex c44_text)) /\ wf (lex c44_text).
Proof. split; [vm_compute; reflexivity|]. apply wfb_ok. vm_compute. reflexivity. Qed.
Definition same_token (t u : tt) : bool :=
  match t, u with
  | TIdent i, TIdent j => Bool.eqb (i_raw i) (i_raw j) && String.eqb (i_name i) (i_name j)
  | TLit k s, TLit l r => (if litkind_dec k l then true else false) && String.eqb s r
  | _, _ => false
  end.
Fixpoint has_token (t u : tt) : bool :=
  same_token t u || match u with TGroup _ ts => existsb (has_token t) ts | _ => false end.
Lemma same_token_eq t u : same_token t u = true -> t = u.
Proof.
  destruct t as [[r n]| |k s|], u as [[r' n']| |l s'|]; cbn; try discriminate; rewrite andb_true_iff.
  - intros [H1 H2]. apply Bool.eqb_prop in H1. apply String.eqb_eq in H2. now subst.
  - destruct (litkind_dec k l); [|intros [H _]; discriminate H]. intros [_ H2]. apply String.eqb_eq in H2. now subst.
Qed.
Lemma has_token_within t ts : existsb (has_token t) ts = true -> within [t] ts.
Proof.
  assert (Ht : forall n ts, size ts < n -> existsb (has_token t) ts = true -> within [t] ts).
  { induction n as [|n IH]; intros us Hn H; [lia|]. apply existsb_exists in H. destruct H as (u & Hin & Hu).
    assert (Hi := Hin). apply in_split in Hi. destruct Hi as (a & b & ->).
    destruct u as [i|c sp|k s|d x]; cbn [has_token] in Hu; apply orb_true_iff in Hu; destruct Hu as [Hu|Hu];
      try discriminate Hu; try (apply same_token_eq in Hu; rewrite Hu; apply (within_here [_] a b)).
    apply within_group. apply IH; auto. assert (Hs := in_group_size d x _ Hin). lia. }
  intros H. apply (Ht (S (size ts))); auto.
Qed.
Example C44_case_tokens :
  Forall (fun t => within [t] (out_of (lex c44_text)))
    [word "My"; word "u8"; TLit LkInt "2"; word "f"; str "k l"; str "d"; str "a b-c"; TLit LkInt "-1";
     TIdent (Id true "x_y"); TIdent (Id true "z_z"); word "Do_It"; TIdent (Id true "foo_bar"); TIdent (Id true "class")].
Proof. repeat (apply Forall_cons; [apply has_token_within; vm_compute; reflexivity|]). apply Forall_nil. Qed.
(** Not everything has an origin. *)
Definition p_semi : list tt := [word "p"; TPunct ";" Alone].
Example C44_no_origin : ~ origin p_semi (word "foo") /\ ~ origin p_semi (str "q") /\ ~ origin p_semi (TIdent (Id true "div")).
Proof.
  assert (Hin : forall x, within x p_semi -> exists a b, a ++ x ++ b = [word "p"; TPunct ";" Alone]).
  { intros x H. unfold p_semi in H. inversion H as [a b Hx|a d inner b Hi Hx]; [eauto|].
    destruct a as [|? [|? [|]]]; discriminate Hx. }
  assert (Hw : forall w, written_name p_semi w -> w = [word "p"]).
  { intros w [Hn Hx]. destruct (Hin _ Hx) as (a & b & He). destruct Hn as [i r e Hr|sp r e Hr].
    - destruct a as [|? [|? [|]]]; try discriminate He. inversion He; subst. destruct r as [|t r]; [reflexivity|].
      inversion Hr; subst; discriminate He.
    - destruct a as [|? [|? [|]]]; discriminate He. }
  assert (Hs : forall w m, written_name p_semi w -> camel_snake (snake_name (name_text w)) m -> m = "p").
  { intros w m Hx Hc. rewrite (Hw _ Hx) in Hc. apply camel_iff in Hc. vm_compute in Hc. now subst. }
  split; [|split]; intros H; inversion H as [? Hu|? Hx|? Hx|? w Hx He|? ? Hx Hc|l Hl Hx|? ? ? Hx]; subst.
  all: try (destruct (Hin _ Hu) as (a & b & He); destruct a as [|? [|? [|]]]; discriminate He).
  all: try (match type of Hx with List.In _ _ => idtac end; cbn in Hx; repeat (destruct Hx as [Hx|Hx]; [discriminate Hx|]); destruct Hx).
  - rewrite (Hw _ Hx) in *. discriminate.
  - destruct l as [|x l]; [now destruct Hl|]. inversion Hx as [|? ? (w & Hwx & ->) Hr]; subst. rewrite (Hw _ Hwx) in *.
    destruct l; discriminate.
  - rewrite (Hw _ Hx) in *. discriminate.
  - specialize (Hs _ _ Hx Hc). discriminate Hs.
Qed.

(** A name that starts with a letter no identifier of the input starts with is
    not spelled in the input. *)
Fixpoint no_start (c : ascii) (t : tt) : bool :=
  match t with
  | TIdent i => match i_name i with String d _ => negb (Ascii.eqb c d) | EmptyString => false end
  | TGroup _ ts => forallb (no_start c) ts
  | _ => true
  end.
Lemma no_start_fresh c r input : forallb (no_start c) input = true -> c <> "-"%char -> c <> "_"%char ->
  forall w, written_name input w -> snake_name (name_text w) <> String c r.
Proof.
  intros H Hd Hu w [Hn Hw]. assert (Hf : forallb (no_start c) w = true).
  { clear Hn. induction Hw as [a b|a d inner b Hw IH]; rewrite !forallb_app in H; cbn [forallb no_start] in H;
      rewrite !andb_true_iff in H; tauto. }
  intros He. destruct Hn as [i ts e Hr|sp ts e Hr]; cbn [forallb] in Hf.
  - apply andb_true_iff in Hf. destruct Hf as [Hi _]. cbn [no_start] in Hi.
    change (name_text (TIdent i :: ts)) with (i_name i ++ name_text ts)%string in He.
    destruct (i_name i) as [|d s]; [discriminate Hi|]. cbn in He. injection He as He _.
    apply negb_true_iff in Hi. destruct (ascii_dec d "-"); subst; [now apply Hu|].
    now rewrite Ascii.eqb_refl in Hi.
  - cbn in He. injection He as He _. now apply Hu.
Qed.
Example C44_placeholders_case :
  let input := lex "div a=1 { p .x { 'x' } }" in
  mview E0 input = Expanded (out_of input) /\ wf input /\
  forall w, written_name input w -> snake_name (name_text w) <> "MissingValueAfterEq".
Proof.
  split; [vm_compute; reflexivity|]. split; [apply wfb_ok; vm_compute; reflexivity|].
  apply no_start_fresh; [vm_compute; reflexivity|discriminate..].
Qed.
