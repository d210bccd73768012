(** Theorem C48: expansions are Rust expressions; what embedded code sees. *)
From Verif Require Import PropFacts1 CodeFacts ElementFacts Inv Fuel ExampleFacts.
From Verif Require Import RustFacts Properties2.
From Verif Require Import SpecStr SpecGrammar SpecOut SpecRead SpecRust Lex Macro.
Open Scope list_scope.

(** ** C48: the expansion is a Rust expression *)

(** [U] judges the code the user wrote together with what is in scope.  It is
    arbitrary: in particular it may accept a piece of code in one scope only. *)
Theorem C48_expression U E input cs out : expands E input cs out -> view_fits U cs ->
  (exists body, out = [braces body] /\ rust_stmts U [] body) /\ rust_expr U [] out.
Proof.
  intros H Hf. assert (Hr := expands_root _ _ _ _ H). destruct H as (_ & _ & Hc & _).
  destruct (view_rust U E input cs out Hc Hf Hr) as (body & -> & Hb). split; [now exists body|].
  now apply re_postfix, rpo_primary, rp_block.
Qed.
Print Assumptions C48_expression.

(** If all code of the user is fine wherever it stands, the expansion is an
    expression: the macro itself never writes anything else. *)
Definition anything : code := Code (fun _ _ => True) (fun _ _ => True) (fun _ _ => True) (fun _ _ => True) (fun _ => True).
Lemma value_anything sc v : value_fits anything sc v.
Proof. destruct v as [| |[|]]; exact I. Qed.
Lemma attr_anything sc a : attr_fits anything sc a.
Proof. destruct a as [a|d|ts]; cbn; auto using value_anything. Qed.
Lemma fits_anything e : forall sc slot, fits anything sc slot e.
Proof.
  induction e as [t sels attrs args ch IHe IHs] using element_children_ind. intros sc slot.
  destruct t as [i|p|i|i|k].
  2: { apply fits_component; auto using value_anything, attr_anything.
       - intros i b g _. exact I.
       - intros _ ps _. exact I. }
  all: apply fits_html; auto using value_anything, attr_anything; intros p Hx; discriminate Hx.
Qed.
Theorem C48_template E input out : env_ok E -> wf input -> mview E input = Expanded out ->
  rust_expr anything [] out.
Proof.
  intros HE Hw H. destruct (mview_sound E input out HE Hw H) as (cs & Hc & Hr).
  apply (C48_expression anything E input cs out); [unfold expands; auto|].
  split; auto using value_anything, fits_anything.
Qed.
Print Assumptions C48_template.

(** ** Cases *)

(** A view in which every piece of code is accepted in one scope only. *)
Definition scoped_view : list tt := lex
  "Await a={k1} class:x={k2} {..z} clone:name |g| {
     {k3} Inner<u8> clone:h-i b={k4} |x: u8| { {k5} }
     slot:Foo clone:w c={k6} |s| { {k7} f['{}', k8] }
     div prop:v=[k9] { {k10} } }
   {k11}".
Definition var (s : string) : binding := Var (Id true s).
Definition in_await : scope := [Params [word "g"]; var "name"].
Definition in_inner : scope := Params (lex "x: u8") :: var "h_i" :: in_await.
Definition in_foo : scope := [Params [word "s"]; var "w"].
Definition scoped : code := {|
  ok_block sc ts := In (sc, ts)
    [([], [word "k1"]); ([], [word "k2"]); (in_await, [word "k3"]); (in_await, [word "k4"]);
     (in_inner, [word "k5"]); ([], [word "k6"]); (in_foo, [word "k7"]);
     (in_await, [word "k9"]); (in_await, [word "k10"]); ([], [word "k11"])];
  ok_format sc ts := (sc, ts) = (in_foo, lex "'{}', k8");
  ok_expr sc ts := (sc, ts) = ([], [word "z"]);
  ok_params sc ps := In (sc, ps) [([var "name"], [word "g"]); (var "h_i" :: in_await, lex "x: u8"); ([var "w"], [word "s"])];
  ok_generics g := g = [sym "<"; word "u8"; sym ">"]
|}.
Ltac each :=
  let x := fresh "x" in let H := fresh "H" in intros x H;
  repeat (destruct H as [H|H]; [first [discriminate H|injection H as H; subst x|subst x]|]); try destruct H.
Ltac fit_value := cbn [value_fits ok_block ok_format scoped]; vm_compute; tauto.
Ltac fit_attr :=
  cbn [attr_fits kv_value d_value]; first [fit_value|reflexivity|intros v Hv; first [discriminate Hv|injection Hv as <-; fit_value]].
Ltac fit :=
  first [apply fits_component|apply fits_html; [intros p Hp; discriminate Hp|..]]; cbn [child_list];
  match goal with
  | |- path_fits _ _ => intros i b g Hg; vm_compute in Hg; repeat (destruct Hg as [Hg|Hg]; [first [discriminate Hg|injection Hg; intros; subst; reflexivity]|]); destruct Hg
  | |- forall a, In a _ -> attr_fits _ _ a => each; fit_attr
  | |- forall v, _ -> value_fits _ _ v => each; fit_value
  | |- forall e, _ -> fits _ _ _ e => each; fit
  | |- _ = false -> _ => intros _; each; fit
  | |- _ <> [] -> _ => intros _ ps Hps; vm_compute in Hps; vm_compute; intuition congruence
  end.
Definition scoped_tree : list child := Eval vm_compute in tree_of scoped_view.
Example C48_case : expands E0 scoped_view scoped_tree (out_of scoped_view) /\ view_fits scoped scoped_tree.
Proof.
  split.
  - replace scoped_tree with (tree_of scoped_view) by (vm_compute; reflexivity). apply case_expands; vm_compute; reflexivity.
  - split; unfold scoped_tree.
    + each. fit_value.
    + each. fit.
Qed.

(** Not everything is an expression: after a word comes [:], [.] or a call. *)
Definition second_ok (ts : list tt) : Prop :=
  match ts with
  | [] => False
  | TIdent _ :: t :: _ => (exists sp, t = TPunct ":" sp) \/ t = sym "." \/ exists ts, t = parens ts
  | _ => True
  end.
Lemma second_app a b : second_ok a -> (forall i, a = [TIdent i] -> exists t r, b = t :: r /\
    ((exists sp, t = TPunct ":" sp) \/ t = sym "." \/ exists ts, t = parens ts)) -> second_ok (a ++ b).
Proof.
  intros Ha Hb. destruct a as [|[i| | |] [|t a]]; cbn; auto; [destruct Ha|]. now destruct (Hb i eq_refl) as (t & r & -> & H).
Qed.
Lemma postfix_second U sc ts : rust_postfix U sc ts -> second_ok ts.
Proof.
  assert (Hseg : forall ts, rust_segment U ts -> second_ok ts).
  { intros us H. destruct H; cbn; eauto. }
  assert (Hsegs : forall ts, rust_segments U ts -> second_ok ts).
  { intros us H. destruct H as [s H|s r H _]; auto. apply second_app; auto. intros i _. do 2 eexists. split; [reflexivity|].
    left. eexists. reflexivity. }
  induction 1 as [sc e H|sc f args H IH _|sc e i args H IH Hi _].
  - destruct H as [sc k s|sc|sc|sc p H| | | | |]; cbn; auto. destruct H; cbn; auto.
  - apply second_app; auto. intros j _. do 2 eexists. split; [reflexivity|]. right. right. eexists. reflexivity.
  - apply second_app; auto. intros j _. do 2 eexists. split; [reflexivity|]. right. now left.
Qed.
Lemma expr_second U sc ts : (forall sc ts, ~ ok_expr U sc ts) -> rust_expr U sc ts ->
  second_ok ts \/ exists r, ts = word "move" :: r.
Proof.
  intros HU H. destruct H as [sc e H| | | |sc ts H]; cbn; eauto; [left; eapply postfix_second; eauto|now apply HU in H].
Qed.
Definition nothing : code := Code (fun _ _ => False) (fun _ _ => False) (fun _ _ => False) (fun _ _ => False) (fun _ => False).
(** Neither nothing, nor two words, nor generics without [::]. *)
Example C48_not_expressions sc :
  ~ rust_expr nothing sc [] /\
  ~ rust_expr nothing sc [word "f"; word "g"] /\
  ~ rust_expr nothing sc [word "Foo"; sym "<"; word "T"; sym ">"].
Proof.
  assert (Hx : forall sc ts, ~ ok_expr nothing sc ts) by (intros ? ? []).
  repeat split; intros H; apply (expr_second _ _ _ Hx) in H; destruct H as [H|(r & H)];
    try discriminate H; cbn in H; [destruct H|..]; destruct H as [(sp & H)|[H|(us & H)]]; discriminate H.
Qed.
(** Code that needs a variable is accepted only where the variable is. *)
Definition needs_a : code :=
  Code (fun sc ts => sc = [var "a"] /\ ts = [word "a"; sym ";"]) (fun _ _ => False) (fun _ _ => False) (fun _ _ => False) (fun _ => False).
Definition uses_a : list tt := [braces [word "a"; sym ";"]].
Example C48_scope_matters :
  ~ rust_expr needs_a [] uses_a /\
  rust_expr needs_a [] [braces (List.concat [[word "let"; TIdent (Id true "a"); sym "="]; [str "x"]; [sym ";"]; [word "f"; parens uses_a]])].
Proof.
  assert (Hx : forall sc ts, ~ ok_expr needs_a sc ts) by (intros ? ? []). split.
  - assert (Hs : ~ rust_stmts needs_a [] [word "a"; sym ";"]).
    { intros H. inversion H as [? ? _ He|? ? ? Ha|]; subst.
      - apply (expr_second _ _ _ Hx) in He. destruct He as [He|(r & He)]; [|discriminate He].
        cbn in He. destruct He as [(sp & He)|[He|(us & He)]]; discriminate He.
      - inversion Ha; subst; discriminate. }
    intros H. inversion H as [? ? Hp|? ? Hp| | |? ? Hu]; subst; [|now apply Hx in Hu].
    inversion Hp as [? ? H1|? f args H1 Hf Hq Hr|? e i args H1 Hf Hi Hq Hr]; subst.
    + inversion H1 as [| | |? ? Hpath|? ? Hst|? ? Hub| | |]; subst; auto.
      * inversion Hpath as [r Hr| |]; subst. inversion Hr as [? Hg|? ? Hg _ Heq]; subst; inversion Hg; subst; discriminate.
      * destruct Hub as [Hub _]. discriminate Hub.
    + destruct f as [|t [|? ?]]; discriminate.
    + destruct e as [|t [|? ?]]; discriminate.
  - apply re_postfix, rpo_primary, rp_block. apply (rst_let needs_a [] (Id true "a") [str "x"]); [now left|apply str_expr|].
    apply rst_tail; [intros []|]. apply (path_call needs_a _ [word "f"]).
    + apply rp_rel, segment_word. apply usable_dec. reflexivity.
    + apply RustFacts.one, prim_expr, rp_user_block. split; reflexivity.
Qed.
