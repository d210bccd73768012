(** Proofs for C70. *)
From Verif Require Import Fuel Inv Follow Context Same SpecGrammar SpecContext SpecConfined.
Open Scope list_scope.

Definition reading_of (E : env) (ts : list tt) : reading :=
  match children_of E ts with
  | PR (Ret cs) _ ds => Read cs ds
  | PR (Panic w) _ _ => Died w
  | PR _ _ ds => Stopped ds
  end.

Lemma layer_exists E k pre slot u args d post : env_ok E ->
  forall x, fits E (Inside k pre slot u args d post) x -> wf (plug (Inside k pre slot u args d post) x) ->
  exists l, children_phrase E pre (l_before l) /\ l_slot l = (if slot then true else false) /\
    l_args l = args_kept args /\ l_after l = reading_of E post /\
    (forall y, wf y -> (args = None -> d = Brace -> children_block y) ->
       elem_head E u (l_tag l) (l_selectors l) (l_attrs l) (args_tokens args ++ TGroup d y :: post) /\
       reading_of E (pre ++ slot_tokens slot ++ u ++ args_tokens args ++ TGroup d y :: post) =
       wrap l (reading_of E y)).
Proof.
  intros HE x Hf Hwf. cbn [fits plug] in *.
  destruct Hf as ((cs & Hp) & (t & sels & attrs & Hh) & Ho & Ha & Hd & Hk).
  exists (Layer cs (if slot then true else false) t sels attrs (args_kept args) (reading_of E post)). cbn.
  split; [exact Hp|]. split; [reflexivity|]. split; [reflexivity|]. split; [reflexivity|].
  intros y Hy Hb. assert (Hu : upto Narrow (args_tokens args ++ TGroup d x :: post) (args_tokens args ++ TGroup d y :: post))
    by (apply upto_app, up_stop, ss_group; tauto).
  assert (Hh2 : elem_head E u t sels attrs (args_tokens args ++ TGroup d y :: post)).
  { eapply (upto_head (m := Narrow)); [auto|discriminate|exact Hu|apply args_not_op| |exact Hh].
    destruct args as [[[sp l] sp']|]; cbn; auto. destruct d; auto. }
  split; [exact Hh2|].
  assert (Ho2 : opens slot (u ++ args_tokens args ++ TGroup d y :: post)) by (eapply upto_opens; [|exact Ho]; now apply upto_app).
  assert (Hwf' : wf (pre ++ slot_tokens slot ++ u ++ args_tokens args ++ TGroup d y :: post)).
  { apply plug_wf in Hwf. rewrite !wf_app, wf_cons, wf_group in *. tauto. }
  unfold reading_of at 1. rewrite (at_block E pre cs slot u t sels attrs args d y post); auto.
  unfold reading_of, wrap, l_owner. cbn [l_before l_after l_tag l_selectors l_attrs l_args l_slot].
  destruct (children_of_cases E y HE) as [(ci & ds & ->)|[(r & ds & -> & _)|(w & r & ds & ->)]]; cbn [append_to]; auto.
  destruct (children_of_cases E post HE) as [(ci' & ds' & ->)|[(r' & ds' & -> & _)|(w' & r' & ds' & ->)]];
    unfold prepend, cons_child; cbn [append_to p_out p_rest p_diags]; auto.
  now destruct slot.
Qed.

Lemma confined E k : env_ok E -> forall x, fits E k x -> wf (plug k x) ->
  exists ls, layers_of E (reading_of E) k ls /\
    forall y, wf y -> (bare_brace k -> children_block y) -> reading_of E (plug k y) = around ls (reading_of E y).
Proof.
  intros HE. induction k as [|k IH pre slot u args d post]; intros x Hf Hwf.
  { exists []. split; [constructor|]. reflexivity. }
  destruct (layer_exists E k pre slot u args d post HE x Hf Hwf) as (l & H1 & H2 & H3 & H4 & H5).
  cbn [fits plug] in Hf, Hwf. assert (Hk := proj2 (proj2 (proj2 (proj2 (proj2 Hf))))).
  destruct (IH _ Hk Hwf) as (ls & Hls & IHy). exists (l :: ls). split.
  { constructor; auto. exists x. apply H5.
    - apply plug_wf in Hwf. rewrite !wf_app, wf_cons, wf_group in Hwf. tauto.
    - intros -> ->. destruct Hf as (_ & (t & sels & attrs & Hh) & _). apply head_open in Hh. tauto. }
  intros y Hy Hb. cbn [plug].
  rewrite IHy.
  - cbn [around fold_left]. unfold around. f_equal. apply H5; [exact Hy|]. intros -> ->. apply Hb. exact I.
  - apply plug_wf in Hwf. rewrite !wf_app, wf_cons, wf_group in *. tauto.
  - intros Hbb. destruct k as [|k' pre' slot' u' args' d' post']; [contradiction|].
    destruct args'; [contradiction|]. destruct d'; try contradiction.
    cbn [fits] in Hk. destruct Hk as (_ & (t' & sels' & attrs' & Hh') & _).
    apply head_open in Hh'. destruct Hh' as [_ He']. cbn in He'.
    rewrite !app_assoc in *. eapply children_block_inner. exact He'.
Qed.

Lemma around_stopped ls ds : around ls (Stopped ds) = Stopped ds.
Proof. induction ls; cbn; auto. Qed.
Lemma around_died ls w : around ls (Died w) = Died w.
Proof. induction ls; cbn; auto. Qed.

Lemma around_cases ls : exists D,
  (forall cs ds, around ls (Read cs ds) = Read (put ls cs) (ds ++ D)) \/
  (forall cs ds, around ls (Read cs ds) = Stopped (ds ++ D)) \/
  (exists w, forall cs ds, around ls (Read cs ds) = Died w).
Proof.
  induction ls as [|l ls (D & IH)]; [exists []; left; intros; cbn; now rewrite app_nil_r|].
  destruct (l_after l) as [cs' ds'|ds'|w] eqn:Ha.
  - exists (ds' ++ D). destruct IH as [IH|[IH|[w IH]]]; [left|right; left|right; right; exists w];
      intros cs ds; cbn [around fold_left wrap put]; rewrite Ha; fold (around ls); unfold around in IH; rewrite IH;
      auto; now rewrite app_assoc.
  - exists ds'. right. left. intros cs ds. cbn [around fold_left wrap]. rewrite Ha. apply around_stopped.
  - exists []. right. right. exists w. intros cs ds. cbn [around fold_left wrap]. rewrite Ha. apply around_died.
Qed.
