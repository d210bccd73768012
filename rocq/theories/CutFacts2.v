(** Facts for C69: the reports about a view of which parts were taken out, and
    what makes it panic. *)
From Verif Require Import Ast SpecStr SpecGrammar SpecOut SpecReports SpecRead SpecStop SpecCut CutFacts.
Open Scope list_scope.

Scheme cut_element_mind := Minimality for cut_element Sort Prop
  with cut_children_mind := Minimality for cut_children Sort Prop.
Combined Scheme cut_mutind from cut_element_mind, cut_children_mind.

Lemma less_flat_map {A B} (R : A -> A -> Prop) (f : A -> list B) l m :
  (forall x y, R x y -> less eq (f x) (f y)) -> less R l m -> less eq (flat_map f l) (flat_map f m).
Proof.
  intros H. induction 1 as [|y l m Hl IH|x y l m Hx Hl IH]; cbn; [constructor| |].
  - apply (less_app eq [] (f y)); [apply less_none|auto].
  - apply less_app; auto.
Qed.

(** ** Reports *)

Definition slot_reports (c : child) : list diag :=
  match c with
  | CSlot e => if single_name (el_tag e) then element_reports true e else [DSlotPath]
  | _ => []
  end.
Lemma element_reports_eq slot t sels attrs args ch :
  element_reports slot (Element t sels attrs args ch) =
  selector_reports (role_of slot t) sels ++ flat_map (attr_reports (role_of slot t)) attrs ++
  flat_map child_reports (child_list ch) ++
  match role_of slot t with OnHtml => [] | _ => flat_map slot_reports (child_list ch) end.
Proof.
  cbn [element_reports]. f_equal. f_equal. destruct ch as [l|]; cbn [child_list]; [|now destruct (role_of slot t)].
  f_equal.
  - induction l as [|[v|e|e] l IH]; cbn; [reflexivity|now f_equal|now f_equal|exact IH].
  - destruct (role_of slot t); [reflexivity| |]; (induction l as [|[v|e|e] l IH]; cbn; [reflexivity|exact IH|exact IH|now f_equal]).
Qed.

Lemma cut_attr_reports r x y : cut_attr x y -> less eq (attr_reports r x) (attr_reports r y).
Proof.
  intros [a|i k m v]; [now apply less_refl|].
  assert (L : forall (a b c : list diag), less eq b c -> less eq (a ++ b) (a ++ c)) by (intros; apply less_app; [now apply less_refl|auto]).
  assert (D : forall (a b c : list diag), less eq b c -> less eq b (a ++ c)) by (intros a b c H; now apply (less_app eq [] a); [apply less_none|]).
  assert (R : forall l : list diag, less eq l l) by (intros; now apply less_refl).
  destruct r; cbn [attr_reports].
  - unfold html_dir_reports, SpecReports.named, on_reports, use_reports, event_reports. cbn [d_dir d_key d_modifier d_value modifier_reports].
    destruct (_ || _); [cbn [app]; apply (D [DModifier]), R|]. destruct (SpecReports.is_word i "on").
    { rewrite <- !app_assoc. apply L, D, R. }
    destruct (SpecReports.is_word i "use"); [apply L, D, R|]. apply R.
  - unfold component_dir_reports, SpecReports.named, clone_reports, on_reports, use_reports, event_reports. cbn [d_dir d_key d_modifier d_value modifier_reports].
    destruct (SpecReports.is_word i "clone"); [cbn [app]; apply (D [DModifier]), L, (D [DModifier]), R|].
    destruct (_ || _); [apply R|]. destruct (SpecReports.is_word i "attr"); [apply R|]. destruct (SpecReports.is_word i "prop"); [apply R|].
    destruct (SpecReports.is_word i "on"). { rewrite <- !app_assoc. apply L, D, R. }
    destruct (SpecReports.is_word i "use"); [apply L, D, R|]. apply R.
  - unfold slot_dir_reports, SpecReports.named, clone_reports. cbn [d_dir d_key d_modifier d_value modifier_reports].
    destruct (SpecReports.is_word i "clone"); [cbn [app]; apply (D [DModifier]), L, (D [DModifier]), R|]. apply R.
Qed.

Lemma cut_reports :
  (forall e e', cut_element e e' -> forall slot, less eq (element_reports slot e) (element_reports slot e')) /\
  (forall l l', cut_children l l' -> less eq (flat_map child_reports l) (flat_map child_reports l') /\
    less eq (flat_map slot_reports l) (flat_map slot_reports l')).
Proof.
  apply cut_mutind.
  - intros t sels' sels attrs' attrs args' args ch' ch Hs Ha Hc [IH1 IH2] Hg slot. rewrite !element_reports_eq.
    apply less_app; [|apply less_app; [|apply less_app; [exact IH1|]]].
    + unfold selector_reports. destruct (role_of slot t); try constructor. destruct sels' as [|s r]; [apply less_none|].
      destruct sels; [now apply less_nil_inv in Hs|now apply less_refl].
    + eapply less_flat_map; [apply cut_attr_reports|exact Ha].
    + destruct (role_of slot t); [constructor|exact IH2|exact IH2].
  - split; constructor.
  - intros c l m H [IH1 IH2]. cbn. split.
    + apply (less_app eq [] (child_reports c)); [apply less_none|exact IH1].
    + apply (less_app eq [] (slot_reports c)); [apply less_none|exact IH2].
  - intros v l m H [IH1 IH2]. cbn. split; [|exact IH2]. apply less_app; [now apply less_refl|exact IH1].
  - intros e e' l m He IHe H [IH1 IH2]. cbn. split; [|exact IH2]. apply less_app; [apply IHe|exact IH1].
  - intros e e' l m He IHe H [IH1 IH2]. cbn. split; [exact IH1|]. apply less_app; [|exact IH2].
    replace (el_tag e') with (el_tag e) by (now destruct He). destruct (single_name (el_tag e)); [apply IHe|now apply less_refl].
Qed.

(** ** Panics *)

Lemma cut_html_stops kind w x y : cut_attr x y -> html_attr_stops kind w x -> html_attr_stops kind w y.
Proof.
  intros [a|i k m v] H; [exact H|]. inversion H as [|name d Hi [Hd Hk]]; subst. apply (hs_dir kind w name); [exact Hi|]. now split.
Qed.
Lemma cut_comp_stops slot w x y : cut_attr x y -> comp_attr_stops slot w x -> comp_attr_stops slot w y.
Proof.
  intros [a|i k m v] H; [exact H|]. inversion H as [|d [Hd Hk]|name d Hs Hi [Hd Hk]|d k' Hs Hd Hk Hn Hc]; subst.
  - apply cs_clone. now split.
  - apply (cs_dir false w name); auto. now split.
  - now apply (cs_attr false w _ k').
Qed.
Lemma cut_stops w slot e : elem_stops w slot e -> forall e', cut_element e e' -> elem_stops w slot e'.
Proof.
  induction 1 as [e kind a Ht Hin Hs|slot e p a Ht Hin Hs|slot e c Hin Hc IH|slot e p c Ht Hin Hn Hw|slot e p c i m Ht Hin Hc Hm Hr Hw
    |slot e p c i Ht Hin Hc Hs IH]; intros e' He; destruct He as [t sels' sels attrs' attrs args' args ch' ch Hsel Ha Hch Hg];
    cbn [el_tag el_attrs el_children] in *.
  - destruct (less_in _ _ _ _ Ha Hin) as (y & Hy & Hay). apply (es_html_attr w _ kind y); auto. now apply (cut_html_stops kind w a).
  - destruct (less_in _ _ _ _ Ha Hin) as (y & Hy & Hay). apply (es_comp_attr w slot _ p y); auto. now apply (cut_comp_stops slot w a).
  - destruct (cut_element_in _ _ _ Hch Hin) as (c' & Hin' & Hcc). apply (es_child w slot _ c'); auto.
  - destruct (cut_slot_in _ _ _ Hch Hin) as (c' & Hin' & Hcc). apply (es_slot_tag w slot _ p c'); auto. destruct Hcc. exact Hn.
  - destruct (cut_slot_in _ _ _ Hch Hin) as (c' & Hin' & Hcc). apply (es_slot_name w slot _ p c' i m); auto. destruct Hcc. exact Hc.
  - destruct (cut_slot_in _ _ _ Hch Hin) as (c' & Hin' & Hcc). apply (es_slot w slot _ p c' i); auto. destruct Hcc. exact Hc.
Qed.

(** ** Whole views *)

Definition root_slot (cs : list child) : bool := existsb (fun c => match c with CSlot _ => true | _ => false end) cs.
Lemma root_slot_iff cs : root_slot cs = true <-> exists e, In (CSlot e) cs.
Proof.
  unfold root_slot. rewrite existsb_exists. split.
  - intros (c & Hc & H). destruct c; try discriminate. eauto.
  - intros (e & H). exists (CSlot e). auto.
Qed.
Lemma cut_view_reports cs cs' : cut_children cs' cs ->
  ((exists e, In (CSlot e) cs) -> exists e, In (CSlot e) cs') -> less eq (view_reports cs') (view_reports cs).
Proof.
  intros H Hs. unfold view_reports. fold (root_slot cs) (root_slot cs'). destruct (root_slot cs') eqn:Q.
  - apply root_slot_iff in Q. destruct Q as (e & He). destruct (cut_slot_in _ _ _ H He) as (e' & He' & _).
    replace (root_slot cs) with true; [now apply less_refl|]. symmetry. apply root_slot_iff. eauto.
  - replace (root_slot cs) with false; [now apply cut_reports|]. symmetry. apply Bool.not_true_iff_false. intros Hx. apply root_slot_iff in Hx.
    apply Hs in Hx. apply root_slot_iff in Hx. congruence.
Qed.
Lemma cut_view_stops cs cs' w : cut_children cs' cs ->
  ((exists e, In (CSlot e) cs) -> exists e, In (CSlot e) cs') -> view_stops cs' w -> view_stops cs w.
Proof.
  intros H Hs [Hn (e & He & Hw)]. split.
  - intros x Hx. destruct (Hs (ex_intro _ x Hx)) as (y & Hy). now apply (Hn y).
  - destruct (cut_element_in _ _ _ H He) as (e' & He' & Hc). exists e'. split; [exact He'|]. now apply (cut_stops w false e).
Qed.
