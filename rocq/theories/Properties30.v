(** Theorem C64: what reports say, and what is at their places. *)
From Verif Require Import PropFacts1 KebabFacts Texts TextFacts SpanExamples SLex ExampleFacts Properties20.
From Verif Require Import SpecStr SpecGrammar SpecSpan SpecSpell SpecBroken SpecText STokens Erase.
Open Scope list_scope.
Open Scope string_scope.
Close Scope sparse_scope.
Close Scope sexpand_scope.

(** ** C64: every report fits its place *)

(** The reports [ds] are made about the view. *)
Definition reported (E : senv) (input : list stt) (ds : list sdiag) : Prop :=
  smview E input = SErrors ds \/ exists ts, smview_nightly E input = SGave ts ds.

(** What a report says is true of the tokens at its place: there are no other
    texts than those of [SpecText.v], except the texts syn has about generic
    arguments, and then there is a [<] in the view. *)
Theorem C64_texts E input ds d p : senv_ok E -> wf (erases input) -> reported E input ds -> In (d, p) ds ->
  match diag_text d with
  | Some t => about E Call input p t (diag_help d)
  | None => exists s sp, within [SPunct s "<" sp] input
  end.
Proof.
  intros HE Hw Hr. enough (H : all_tell E Call input ds) by (intros Hin; exact (proj1 (Forall_forall _ _) H _ Hin)).
  destruct (C54_described E input HE Hw) as [(cs & ds0 & Hd)|(o & ds0 & Hd)].
  - destruct (proj1 (t_read E HE) _ _ _ _ Hd) as [H1 H2]. assert (H3 := t_placed E Call input cs H2).
    destruct Hr as [Hr|(ts & Hr)]; [assert (H := C54_reports E input cs ds0 HE Hw Hd)|assert (H := C54_reports_nightly E input cs ds0 HE Hw Hd)];
      rewrite Hr in H; [destruct H as [-> _]|subst ds]; now apply all_app.
  - assert (H1 := t_ab_children E HE _ _ _ _ Hd). destruct o as [w|].
    + destruct (C54_panics E input w ds0 HE Hw Hd) as [H H']. destruct Hr as [Hr|(ts & Hr)]; congruence.
    + destruct (C54_aborts E input ds0 HE Hw Hd) as (H & H' & _). destruct Hr as [Hr|(ts & Hr)]; congruence.
Qed.
Print Assumptions C64_texts.

(** The only texts that say that something ends are at the end of a block or
    of the view. *)
Theorem C64_end E input ds d p t : senv_ok E -> wf (erases input) -> reported E input ds -> In (d, p) ds ->
  diag_text d = Some ("unexpected end of input, " ++ t) ->
  p = Call \/ exists b k ts, within [SGroup b k ts] input /\ p = d_close b.
Proof.
  intros HE Hw Hr Hin Ht. assert (H := C64_texts E input ds d p HE Hw Hr Hin). rewrite Ht in H. inversion H; assumption.
Qed.
Print Assumptions C64_end.

(** Errors that are made while reading but always caught: nobody sees their
    texts. *)
Definition unseen : list string :=
  ["invalid value: expected bracket, block or literal"; "no brace found"; "no paren found";
   "found extra tokens trying to parse parenthesized expression"; "no attribute found"; "invalid spread attribute";
   "no class or id shorthand found"; "expected string literal"; "function generics are not allowed"].
Theorem C64_unseen E input ds d p t : senv_ok E -> wf (erases input) -> reported E input ds -> In (d, p) ds ->
  diag_text d = Some t -> ~ In t unseen.
Proof.
  intros HE Hw Hr Hin Ht Hu. assert (H := C64_texts E input ds d p HE Hw Hr Hin). rewrite Ht in H.
  unfold unseen in Hu. cbn [In] in Hu. repeat (destruct Hu as [<-|Hu]; [inversion H|]). exact Hu.
Qed.
Print Assumptions C64_unseen.

(** ** Texts tell kinds of reports apart *)

(** Kinds of reports that say the same. *)
Inductive say_alike : diag -> diag -> Prop :=
| sa_same d : say_alike d d
| sa_abort e : say_alike (DParse e) (DAbortParse e)
| sa_ident : say_alike DExpectedIdent (DParse (EIdent AtOther))
| sa_kebab s : say_alike (DParse (EKebab AtOther)) (DParse (EKebab (AtWord s)))
| sa_sym d d' : say_alike d d' -> say_alike d' d
| sa_trans d d' d'' : say_alike d d' -> say_alike d' d'' -> say_alike d d''.
#[local] Hint Constructors say_alike : core.


Lemma length_app (a b : string) : String.length (a ++ b) = (String.length a + String.length b)%nat.
Proof. induction a; cbn; auto. Qed.
Lemma text_end (a b c d : string) : (a ++ c)%string = (b ++ d)%string -> String.length c = String.length d -> a = b /\ c = d.
Proof.
  revert b. induction a as [|x a IH]; intros [|y b] H Hl; cbn in H.
  - auto.
  - subst c. cbn in Hl. rewrite length_app in Hl. lia.
  - subst d. cbn in Hl. rewrite length_app in Hl. lia.
  - injection H as -> H. destruct (IH b H Hl) as [-> ->]. auto.
Qed.
Lemma elements_slots a b : (a ++ ":` is not supported on elements")%string <> (b ++ ":` is not supported on slots")%string.
Proof.
  intros H. change ":` is not supported on elements" with (":` is not supported on eleme" ++ "nts") in H.
  change ":` is not supported on slots" with (":` is not supported on sl" ++ "ots") in H. rewrite <- !append_assoc in H.
  apply text_end in H as [_ H]; [discriminate|reflexivity].
Qed.
Lemma values_end a (s : string) : String.length s = 2%nat -> s <> "es" -> "clone:` does not take any values" <> (a ++ s)%string.
Proof.
  intros Hl Hs H. change "clone:` does not take any values" with ("clone:` does not take any valu" ++ "es") in H.
  apply text_end in H as [_ H]; [congruence|now rewrite Hl].
Qed.
Lemma values_dir a x : x = "elements" \/ x = "slots" -> "clone:` does not take any values" <> (a ++ (":` is not supported on " ++ x))%string.
Proof.
  intros [-> | ->]; [change (":` is not supported on " ++ "elements")%string with (":` is not supported on elemen" ++ "ts")|
    change (":` is not supported on " ++ "slots")%string with (":` is not supported on slo" ++ "ts")];
  rewrite <- append_assoc; apply values_end; (reflexivity || discriminate).
Qed.
Definition plain_kind (d : diag) : diag :=
  match d with
  | DAbortParse e => DParse e
  | _ => d
  end.
Lemma plain_alike d : say_alike d (plain_kind d) /\ says d = says (plain_kind d).
Proof. destruct d; cbn; auto. Qed.
Ltac parted := match goal with
  | H : (?a ++ ?c)%string = (?b ++ ?c)%string |- _ => apply text_end in H as [H _]; [subst; auto|reflexivity]
  | H : (_ ++ ":` is not supported on elements")%string = (_ ++ ":` is not supported on slots")%string |- _ => now apply elements_slots in H
  | H : (_ ++ ":` is not supported on slots")%string = (_ ++ ":` is not supported on elements")%string |- _ => symmetry in H; now apply elements_slots in H
  | H : String "c" _ = (_ ++ _)%string |- _ => exfalso; revert H; first [apply (values_dir _ "elements"); now left|apply (values_dir _ "slots"); now right]
  | H : (_ ++ _)%string = String "c" _ |- _ => symmetry in H; exfalso; revert H; first [apply (values_dir _ "elements"); now left|apply (values_dir _ "slots"); now right]
  end.
Ltac kinds := repeat match goal with x : perr |- _ => destruct x | x : found |- _ => destruct x | x : bool |- _ => destruct x end.
Lemma plain_apart d d' : plain_kind d = d -> plain_kind d' = d' -> says d = says d' -> say_alike d d'.
Proof.
  intros Hd Hd' H.
  destruct d; try discriminate Hd; clear Hd; kinds;
  (destruct d'; try discriminate Hd'; clear Hd'; kinds; try discriminate H; auto).
  { eapply sa_trans; [apply sa_sym|]; apply sa_kebab. }
  all: injection H as H; parted.
Qed.

Lemma alike_says d d' : say_alike d d' -> says d = says d'.
Proof. induction 1; try reflexivity; congruence. Qed.
(** Two reports have the same text and help only if they are of the same kind
    (and name the same word), up to where they are reported from. *)
Theorem C64_apart d d' : says d = says d' <-> say_alike d d'.
Proof.
  split; [|apply alike_says]. intros H. destruct (plain_alike d) as [H1 H2], (plain_alike d') as [H3 H4].
  eapply sa_trans; [exact H1|]. eapply sa_trans; [|apply sa_sym, H3].
  apply plain_apart; [now destruct d|now destruct d'|]. congruence.
Qed.
Print Assumptions C64_apart.

(** *** Cases *)

(** Each report about a view: text, help, start, and the text under the carets. *)
Definition shown (src : string) : list (option string * option string * nat * string) :=
  map (fun x => (says (fst (fst x)), snd (fst x), snd x)) (pointed SE1 src).
Definition text_of (x : option string * option string * nat * string) : string :=
  match x with (Some t, None, n, c) => t ++ " / " ++ c | (Some t, Some h, n, c) => t ++ " / " ++ c ++ " / " ++ h | _ => "" end.
Definition says_of (src : string) : list string := map text_of (shown src).

(** A view with many reports; it meets the hypotheses of [C64_texts]. *)
Definition noisy_view : string :=
  "p x:a='1' class:b:c on:'e':f attr:k='2' g=h use:'u' m=w['n'] { 7 } Q { slot:a::S; slot:T.d {..s} on:z={1} clone:v=2; } i { j o=; a b-r#c }".
Example C64_case :
  wf (erases (slex noisy_view)) /\ (exists ds, reported SE1 (slex noisy_view) ds /\ List.length ds = 17%nat) /\
  says_of noisy_view =
  ["expected value after = / h / you may have meant to wrap this in braces";
   "only string literals are allowed in children / 7";
   "expected value after = / ;";
   "invalid raw identifier within kebab-ident / r#c";
   "unterminated element / a / add a `;` to terminate the element with no children";
   "unknown directive / x";
   "unknown modifier: modifiers are only supported on `on:` directives / c";
   "event type must be an identifier / 'e'";
   "unknown modifier / f / :undelegated is the only known modifier";
   "`attr:` is not supported on elements / attr";
   "expected identifier / 'u'";
   "unsupported prefix: only `f` is supported. / w";
   "slot name must be a single ident, not a path / a::S";
   "selector shorthands are not supported on slots / .";
   "spread syntax is not supported on slots / {..s}";
   "`on:` is not supported on slots / on";
   "`clone:` does not take any values / 2"].
Proof.
  split; [apply wfb_ok; vm_compute; reflexivity|]. split; [eexists; split; [left; vm_compute; reflexivity|reflexivity]|vm_compute; reflexivity].
Qed.
(** The others. *)
Example C64_more_cases : map says_of
  ["A::fn;"; "A::"; "p { A:: }"; "slot:;"; "slot:5;"; "slot:"; "p a:b:;"; "p a:{b c};"; "p a:{};"; "p |x {}"; "p |x| 'a';"; "p 'a'"; "+";
   "slot:A;"; "p; slot:A;"; "p clone:a;"] =
  [["expected identifier, found keyword `fn` / fn"];
   ["unexpected end of input, expected identifier / (call site)"];
   ["unexpected end of input, expected identifier / }"];
   ["extra semi-colon found / ; / remove this semi-colon"];
   ["expected a kebab-cased ident / 5"];
   ["unexpected end of input, expected a kebab-cased ident / (call site)"];
   ["expected identifier / ;"];
   ["found extra tokens trying to parse braced expression / c"];
   ["unexpected end of input, expected a kebab-cased ident / }"];
   ["closure arguments not closed / |"];
   ["expected children block after closure arguments / 'a'"; "extra semi-colon found / ; / remove this semi-colon"];
   ["unknown attribute / 'a'"; "child elements not found / p 'a' / add a `;` at the end to terminate the element"];
   ["invalid child: expected literal, block, bracket or element / +"];
   ["slots should be inside a parent that supports slots / slot"];
   ["slots should be inside a parent that supports slots / A"];
   ["`clone:` is not supported on elements / clone"]].
Proof. vm_compute. reflexivity. Qed.
(** The place of an extra semicolon after malformed generic arguments is up to
    syn's parser: here it marks the call site, and that is what is reported. *)
Definition SE_generic : senv := 
  SEnv (Env (fun ts => inr (tl ts)) (slot_order (s_env SE1))) (s_join SE1) (fun sc ts => inr (tl ts, sc)).
Example C64_semi_case : smview SE_generic (slex "A<; ;") = SErrors [(DExtraSemi, Call); (DExtraSemi, Src 0 4 5)].
Proof. vm_compute. reflexivity. Qed.

(** ** The recorded texts *)

(** Views of /repo/tests/ui/errors with the texts in the .stderr files there:
    invalid_child, invalid_value, misc_partial, no_children_after_closure,
    non_str_child, return_expression, unterminated_element(_error),
    slot_unsupported_dirs (lines 14-33), invalid_directive. *)
Example C64_recorded : map says_of
  ["(a)"; "div { 'hi there' }; span;";
   "div a=a {}"; "a href={}; a href=(); a href=[];"; "a href=";
   "div class:x={true} { span class=test }"; "div class:x={true} { span class: }";
   "Await future=[async { 1 }] |data| 'no'"; "div { 3 }"; "div class=;";
   "input type='text' 'hi'"; "div { 'something' input.input type='text' }";
   "TakesNothing { slot:Nothing {..attrs}; }"; "TakesNothing { slot:Nothing on:click={|_| ()}; }";
   "TakesNothing { slot:Nothing attr:something='something'; }"; "TakesNothing { slot:Nothing use:a_directive; }";
   "div something:yes='b' {}"; "div class:('abcd') = true {}"; "div style:[1, 2]='black' {}";
   "button on:click:delegated={|_| ()};"; "div class:this:undelegated=true;";
   "button attr:type='submit';"; "Com clone:{to_clone};"] =
  [["invalid child: expected literal, block, bracket or element / ("];
   ["extra semi-colon found / ; / remove this semi-colon"];
   ["expected value after = / a / you may have meant to wrap this in braces"];
   ["expected value after = / ("; "extra semi-colon found / ; / remove this semi-colon"];
   ["expected value after = / ="; "unterminated element / a / add a `;` to terminate the element with no children"];
   ["expected value after = / test / you may have meant to wrap this in braces";
    "unterminated element / span / add a `;` to terminate the element with no children"];
   ["unexpected end of input, expected a kebab-cased ident / }"];
   ["expected children block after closure arguments / 'no'"];
   ["only string literals are allowed in children / 3"];
   ["expected value after = / ;"];
   ["unknown attribute / 'hi'"; "child elements not found / input type='text' 'hi' / add a `;` at the end to terminate the element"];
   ["unterminated element / input / add a `;` to terminate the element with no children"];
   ["spread syntax is not supported on slots / {..attrs}"];
   ["`on:` is not supported on slots / on"];
   ["`attr:` is not supported on slots / attr"];
   ["`use:` is not supported on slots / use"];
   ["unknown directive / something"];
   ["expected a kebab-cased ident / ("];
   ["expected a kebab-cased ident / ["];
   ["unknown modifier / delegated / :undelegated is the only known modifier"];
   ["unknown modifier: modifiers are only supported on `on:` directives / undelegated"];
   ["`attr:` is not supported on elements / attr"];
   ["`clone:` does not take any values / {to_clone}"]].
Proof. vm_compute. reflexivity. Qed.
