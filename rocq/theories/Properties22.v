(** Theorem C56: which trees are written by some view. *)
From Verif Require Import WritableFacts2 ExampleFacts Properties1.
From Verif Require Import SpecStr SpecGrammar SpecWritable.
From Coq Require Import Lia.
Open Scope list_scope.

(** ** C56: exactly the writable trees *)

Theorem C56_written E cs : env_ok E ->
  (exists input, wf input /\ children_phrase E input cs) <-> Forall (child_ok E) cs.
Proof.
  intros HE. split.
  - intros (input & Hw & H). exact (children_read E HE (S (size input)) input cs (Nat.lt_succ_diag_r _) Hw H).
  - intros H. apply children_written. intros c Hc. apply child_written; [exact HE|]. revert c Hc. now apply Forall_forall.
Qed.
Print Assumptions C56_written.

(** The same for what the parser gives without reports. *)
Theorem C56_parsed E cs : env_ok E ->
  (exists input n r, wf input /\ size input < n /\ parse_children E n input = PR (Ret cs) r []) <-> Forall (child_ok E) cs.
Proof.
  intros HE. rewrite <- C56_written by exact HE. split.
  - intros (input & n & r & Hw & Hn & H). exists input. split; [exact Hw|]. eapply C02_accepts_only_grammar; eauto.
  - intros (input & Hw & H). exists input, (S (size input)), []. split; [exact Hw|split; [lia|]]. now apply C03_accepts_grammar; auto.
Qed.
Print Assumptions C56_parsed.

(** Writing is free of context: each tree alone, so all of them one after the other. *)
Theorem C56_each E cs : env_ok E ->
  (exists input, wf input /\ children_phrase E input cs) <->
  Forall (fun c => exists input, wf input /\ children_phrase E input [c]) cs.
Proof.
  intros HE. rewrite C56_written by exact HE. rewrite !Forall_forall. split; intros H c Hc.
  - apply (C56_written E [c] HE). constructor; [auto|constructor].
  - specialize (H c Hc). apply (C56_written E [c] HE) in H. now inversion H.
Qed.
Print Assumptions C56_each.

(** ** Cases *)

Ltac lexes := first [apply CountFacts.lexb_iff; vm_compute; reflexivity].
Lemma name_ok_b s n : match chars s with
    | [] => false
    | c :: r => (dashb c || CountFacts.startb c) && forallb (fun c => dashb c || CountFacts.contb c) r
    end = true -> n = sections s -> name_ok (Kebab s n).
Proof.
  intros H ->. split; [|reflexivity]. cbn [k_repr]. unfold name_string. destruct (chars s) as [|c r]; [discriminate|].
  apply andb_true_iff in H. destruct H as [H1 H2].
  assert (Hd : forall c, dashb c = true -> c = "-"%char) by (intros x; unfold dashb; destruct (ascii_dec x "-"); [auto|discriminate]).
  split.
  - apply orb_true_iff in H1. destruct H1 as [H1|H1]; [left; auto|right; now apply CountFacts.startb_iff].
  - apply Forall_forall. intros x Hx. rewrite forallb_forall in H2. apply H2, orb_true_iff in Hx.
    destruct Hx as [Hx|Hx]; [left; auto|right; now apply CountFacts.contb_iff].
Qed.

(** [a-b.-x class:on-1 {..y} --z=-5 (slot: ::C::<T>() |a| ("t" r#true-b;))]: a
    tree with most of the kinds; the attribute [--z] could not come before [{..y}]. *)
Definition kb s := Kebab s (sections s).
Definition id s := Id false s.
Definition case_tree (attrs : list attr) : child :=
  CElement (Element (TagWeb (kb "a-b")) [SelClass (kb "-x")] attrs None
    (Some [CSlot (Element (TagComponent (Path true [PSeg (id "C") (PAngle true (lex "<T>"))])) [] []
              (Some (lex "|a|")) (Some [CValue (VLit (LitTok LkStr "t")); CElement (Element (TagWeb (kb "true-b")) [] [] None None)]))])).
Definition on_1 := ADir (Directive (id "class") (KKebab (kb "on-1")) None None).
Definition spread_y := ASpread (lex "y").
Definition minus_z := AKv (KvAttr (kb "--z") (VLit (LitTok LkInt "-5"))).

Lemma case_attrs l : Forall (child_ok E0) [case_tree l] <-> Forall attr_ok l /\ attrs_after (Some "-x") l.
Proof.
  split.
  - intros H. inversion H as [|x y Hx _]; subst. inversion Hx as [|e He _|]; subst. inversion He; subst. auto.
  - intros [H1 H2]. constructor; [|constructor]. apply co_element; [|cbn; intros [r Hr]; discriminate].
    constructor.
    + apply to_web; [apply name_ok_b; reflexivity|]. apply tk_web.
      * cbn. unfold upper_char, code_in. cbn. lia.
      * apply existsb_In_f. reflexivity.
      * right. now left.
    + constructor; [apply name_ok_b; reflexivity|constructor].
    + exact H1.
    + exact H2.
    + exact I.
    + intros c [<-|[]]. apply co_slot. constructor; [|constructor|constructor|exact I| |].
      * apply to_path; [discriminate| |intros [i Hi]; discriminate]. constructor; [|constructor]. apply so_generic.
        -- split; [lexes|discriminate].
        -- right. left. apply existsb_In_f. reflexivity.
        -- intros [H|[H|H]]; discriminate.
        -- split; [apply wfb_ok; reflexivity|split; [now exists Alone|]]. exists []. reflexivity.
        -- discriminate.
      * split; [discriminate|]. exists [TIdent (id "a")]. split; [reflexivity|split; [apply wfb_ok; reflexivity|]].
        constructor; [intros [sp Hs]; discriminate|constructor].
      * intros c [<-|[<-|[]]].
        -- constructor; [constructor; exact I|]. intros l0 [= <-]. eauto.
        -- apply co_element; [|cbn; intros [r Hr]; discriminate]. constructor; [|constructor|constructor|exact I|exact I|intros c []].
           apply to_web; [apply name_ok_b; reflexivity|]. apply tk_web.
           ++ cbn. unfold upper_char, code_in. cbn. lia.
           ++ apply existsb_In_f. reflexivity.
           ++ do 4 right. now left.
Qed.

Lemma case_attrs_ok : attr_ok on_1 /\ attr_ok spread_y /\ attr_ok minus_z.
Proof.
  split; [|split].
  - split; [split; [lexes|discriminate]|split; [apply name_ok_b; reflexivity|split; discriminate]].
  - apply wfb_ok. reflexivity.
  - split; [apply name_ok_b; reflexivity|]. apply (vo_neg LkInt "5"); [now left|].
    unfold wf_tt, wf_int. cbn. split; [unfold digit_char, code_in; cbn; lia|constructor].
Qed.
Example C56_case : exists input, wf input /\ children_phrase E0 input [case_tree [on_1; spread_y; minus_z]].
Proof.
  apply (C56_written E0); [exact E0_ok|]. apply case_attrs. destruct case_attrs_ok as (H1 & H2 & H3).
  split; [constructor; [exact H1|constructor; [exact H2|constructor; [exact H3|constructor]]]|].
  cbn [attrs_after]. split; [|split; [|split; [|exact I]]].
  - intros s [= <-]. constructor. intros [l Hl]. apply (f_equal (@rev ascii)) in Hl. rewrite rev_app_distr in Hl. discriminate.
  - intros s _. constructor.
  - intros s Hs. discriminate.
Qed.
(** With the attributes in another order, no view is read as this tree. *)
Example C56_order_case : ~ exists input, wf input /\ children_phrase E0 input [case_tree [spread_y; on_1; minus_z]].
Proof.
  intros H. apply (C56_written E0) in H; [|exact E0_ok]. apply case_attrs in H. destruct H as (_ & _ & _ & H & _).
  specialize (H _ eq_refl). inversion H as [|k i _ |k v H1 H2|]; subst. apply H1. eexists. reflexivity.
Qed.
(** Closure arguments need children, names are not empty, HTML tags are raw identifiers. *)
Example C56_none_case cs c : In c cs ->
  In c [CElement (Element (TagHtml (Id true "p")) [] [] (Some (lex "|a|")) None);
        CElement (Element (TagHtml (Id false "p")) [] [] None None);
        CElement (Element (TagHtml (Id true "p")) [SelId (Kebab "" 0)] [] None None);
        CElement (Element (TagComponent (Path true [PSeg (id "C") PNone])) [] [] None None);
        CValue (VLit (LitBool true))] ->
  ~ exists input, wf input /\ children_phrase E0 input cs.
Proof.
  intros Hin Hc H. apply (C56_written E0) in H; [|exact E0_ok]. rewrite Forall_forall in H. apply H in Hin. clear H.
  destruct Hc as [<-|[<-|[<-|[<-|[<-|[]]]]]].
  - inversion Hin as [|e He _|]; subst. inversion He as [t0 s0 a0 r0 h0 E1 E2 E3 E4 Ha E5]; subst. destruct Ha as [Ha _]. congruence.
  - inversion Hin as [|e He _|]; subst. inversion He as [t0 s0 a0 r0 h0 Ht E2 E3 E4 E5 E6]; subst. inversion Ht.
  - inversion Hin as [|e He _|]; subst. inversion He as [t0 s0 a0 r0 h0 E1 Hs E3 E4 E5 E6]; subst. inversion Hs as [|s1 s2 Hn Hn']; subst. destruct Hn as [[] _].
  - inversion Hin as [|e _ Hw|]; subst. discriminate Hw.
  - inversion Hin as [v _ Hl| |]; subst. destruct (Hl _ eq_refl) as [s Hs]. discriminate.
Qed.
