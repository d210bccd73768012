(** Facts about the counting parser: it is the parser of Parse.v, and how many
    steps it makes. *)
From Verif Require Export Work.
From Coq Require Import Lia Arith.
Open Scope list_scope.

(** ** It is the same parser *)

Definition same {A} (m' : WP A) (m : P A) : Prop := forall ts, snd (m' ts) = m ts.

Lemma same_priced {A} c (m : P A) : same (priced c m) m. Proof. now intros ts. Qed.
Lemma same_bind {A B} m' m (f' : A -> WP B) f : same m' m -> (forall a, same (f' a) (f a)) -> same (w_bind m' f') (bind m f).
Proof.
  intros Hm Hf ts. unfold w_bind, bind. rewrite <- (Hm ts). destruct (m' ts) as [n [[a|e| |w|] r d]]; cbn; auto.
  now rewrite (Hf a r).
Qed.
Lemma same_pay {B} n (f' : unit -> WP B) f : (forall a, same (f' a) f) -> same (w_bind (pay n) f') f.
Proof. intros Hf ts. unfold w_bind, pay. cbn. rewrite (Hf Datatypes.tt ts). now destruct (f ts). Qed.
Lemma same_unwrap {A} m' (m : P A) : same m' m -> same (w_unwrap m') (unwrap m).
Proof. intros Hm ts. unfold w_unwrap, unwrap. rewrite <- (Hm ts). now destruct (m' ts) as [n [[| | | |] ? ?]]. Qed.
Lemma same_abort {A} m' (m : P A) : same m' m -> same (w_unwrap_or_abort m') (unwrap_or_abort m).
Proof. intros Hm ts. unfold w_unwrap_or_abort, unwrap_or_abort. rewrite <- (Hm ts). now destruct (m' ts) as [n [[| | | |] ? ?]]. Qed.
Lemma same_rollback {A} m' (m : P A) : same m' m -> same (w_rollback_err m') (rollback_err m).
Proof. intros Hm ts. unfold w_rollback_err, rollback_err. rewrite <- (Hm ts). now destruct (m' ts) as [n [[| | | |] ? ?]]. Qed.
Lemma same_delimited {A} d m' (m : P A) : same m' m -> same (w_delimited d m') (delimited d m).
Proof.
  intros Hm ts. unfold w_delimited. assert (H : delimited d (fun i => snd (m' i)) ts = delimited d m ts).
  { unfold delimited. destruct ts as [|[| | |d' inner] ts]; auto. now rewrite (Hm inner). }
  destruct ts as [|[| | |d' inner] ts]; auto. destruct (delim_eqb d d'); auto.
Qed.

Ltac same1 := first
  [ apply same_priced | apply same_unwrap | apply same_abort | apply same_rollback | apply same_delimited
  | apply same_bind; [|intros ?] | apply same_pay; intros ?
  | match goal with |- same (if ?c then _ else _) _ => destruct c end
  | match goal with |- same (match ?c with _ => _ end) _ => destruct c end ].
Ltac samely := repeat (same1; auto).

Section Same.
Variable G : list tt -> nat.
Variable E : env.

Lemma same_value : same w_parse_value parse_value. Proof. unfold w_parse_value, parse_value. samely. Qed.
Lemma same_or_emit : same w_parse_or_emit_err parse_or_emit_err.
Proof. unfold w_parse_or_emit_err, parse_or_emit_err. apply same_bind; [apply same_rollback, same_value|]. intros [v|]; samely. Qed.
Lemma same_segment k : same (w_kebab_segment k) (kebab_segment k). Proof. unfold w_kebab_segment, kebab_segment. samely. Qed.
Lemma same_kebab_loop n : forall second k, same (w_kebab_loop n second k) (kebab_loop n second k).
Proof.
  induction n as [|n IH]; intros second k; [now intros ts|]. intros ts. cbn [w_kebab_loop kebab_loop]. revert ts.
  match goal with |- forall ts, snd (?m' ts) = ?m ts => change (same m' m) end.
  apply same_bind; [samely|]. intros [u|].
  - apply same_pay. intros _. apply same_bind; [apply same_segment|auto].
  - destruct (negb _); [samely|]. apply same_bind; [apply same_segment|auto].
Qed.
Lemma same_kebab : same w_parse_kebab parse_kebab.
Proof.
  intros ts. unfold w_parse_kebab, parse_kebab. generalize (S (S (List.length ts))). intros n. revert ts.
  match goal with |- forall ts, snd (?m' ts) = ?m ts => change (same m' m) end.
  apply same_bind; [samely|]. intros i. apply same_bind; [samely|]. intros k. apply same_kebab_loop.
Qed.
Lemma same_snake k : same (w_snake k) (snake k). Proof. apply same_priced. Qed.
Lemma same_kebab_or_str : same w_parse_kebab_or_str parse_kebab_or_str.
Proof. apply same_bind; [samely|]. intros [s|]; [samely|]. apply same_bind; [apply same_kebab|]. intros. samely. Qed.
Lemma same_braced : same w_parse_braced_kebab parse_braced_kebab. Proof. apply same_delimited, same_kebab. Qed.
Lemma same_block k : same (w_into_block_value k) (into_block_value k).
Proof. apply same_bind; [apply same_snake|]. intros. samely. Qed.
Lemma same_angle : same (w_parse_angle G E) (parse_angle E). Proof. apply same_priced. Qed.
Lemma same_seg : same (w_parse_seg G E) (parse_seg E).
Proof.
  unfold w_parse_seg, parse_seg. samely.
Qed.
Lemma same_segs n : same (w_parse_segs_rest G E n) (parse_segs_rest E n).
Proof.
  induction n as [|n IH]; [now intros ts|]. intros ts. cbn [w_parse_segs_rest parse_segs_rest].
  destruct (_ && _); [|reflexivity]. revert ts.
  match goal with |- forall ts, snd (?m' ts) = ?m ts => change (same m' m) end.
  apply same_pay. intros _. apply same_bind; [samely|]. intros _. apply same_bind; [apply same_seg|]. intros s.
  apply same_bind; auto. intros. samely.
Qed.
Lemma same_path : same (w_parse_path G E) (parse_path E).
Proof.
  intros ts. unfold w_parse_path, parse_path. generalize (S (List.length ts)). intros n. revert ts.
  match goal with |- forall ts, snd (?m' ts) = ?m ts => change (same m' m) end.
  apply same_bind; [samely|]. intros l. apply same_bind; [apply same_seg|]. intros s.
  apply same_bind; [apply same_segs|]. intros. samely.
Qed.
Lemma same_tag : same (w_parse_tag G E) (parse_tag E).
Proof.
  apply same_bind; [samely|]. intros [].
  - apply same_bind; [apply same_path|]. intros. samely.
  - apply same_bind; [apply same_kebab|]. intros k. apply same_pay. intros _. destruct (tag_kind_from _); samely.
Qed.
Lemma same_selector : same w_parse_selector parse_selector.
Proof.
  apply same_bind; [samely|]. intros [u|]; [apply same_bind; [apply same_kebab|intros; samely]|].
  apply same_bind; [samely|]. intros [u|]; [apply same_bind; [apply same_kebab|intros; samely]|samely].
Qed.
Lemma same_many {A} m' (m : P A) n : same m' m -> same (w_many n m') (many n m).
Proof.
  intros Hm. induction n as [|n IH]; [now intros ts|]. intros ts. cbn [w_many many]. revert ts.
  match goal with |- forall ts, snd (?m' ts) = ?m ts => change (same m' m) end.
  apply same_bind; [now apply same_rollback|]. intros [x|]; [|samely]. apply same_bind; auto. intros. samely.
Qed.
Lemma same_selectors : same w_parse_selectors parse_selectors.
Proof. intros ts. apply same_many, same_selector. Qed.
Lemma same_kv : same w_parse_kv parse_kv.
Proof.
  apply same_bind; [samely|]. intros [].
  - apply same_bind; [apply same_braced|]. intros k. apply same_bind; [apply same_block|]. intros. samely.
  - apply same_bind; [apply same_kebab|]. intros k. apply same_bind; [samely|]. intros [u|]; [|samely].
    apply same_bind; [apply same_or_emit|]. intros. samely.
Qed.
Lemma same_modifier : same w_try_parse_modifier try_parse_modifier. Proof. unfold w_try_parse_modifier, try_parse_modifier. samely. Qed.
Lemma same_directive : same w_parse_directive parse_directive.
Proof.
  apply same_bind; [samely|]. intros name. apply same_bind; [samely|]. intros _. apply same_bind; [samely|]. intros [].
  - apply same_bind; [apply same_braced|]. intros k. apply same_bind; [apply same_block|]. intros v.
    apply same_bind; [apply same_modifier|]. intros. samely.
  - apply same_bind; [apply same_kebab_or_str|]. intros k. apply same_bind; [apply same_modifier|]. intros m.
    apply same_bind; [samely|]. intros [u|]; [|samely]. apply same_bind; [apply same_or_emit|]. intros. samely.
Qed.
Lemma same_spread : same w_parse_spread parse_spread.
Proof. apply same_bind; [samely|]. intros inner. destruct (take_punct ".." inner); apply same_pay; intros; samely. Qed.
Lemma same_attr : same w_parse_attr parse_attr.
Proof.
  apply same_bind; [samely|]. intros [].
  { apply same_bind; [apply same_abort, same_directive|]. intros. samely. }
  apply same_bind; [samely|]. intros [].
  { apply same_bind; [apply same_kv|]. intros. samely. }
  apply same_bind; [apply same_rollback, same_kv|]. intros [kv|]; [samely|].
  apply same_bind; [apply same_rollback, same_spread|]. intros [sp|]; samely.
Qed.
Lemma same_attrs : same w_parse_attrs parse_attrs.
Proof. intros ts. apply same_many, same_attr. Qed.
Lemma same_closure_loop n : same (w_closure_loop n) (closure_loop n).
Proof.
  induction n as [|n IH]; [now intros ts|]. intros ts. cbn [w_closure_loop closure_loop]. revert ts.
  match goal with |- forall ts, snd (?m' ts) = ?m ts => change (same m' m) end.
  apply same_bind; [samely|]. intros [u|]; [samely|]. apply same_bind; [samely|]. intros [t|]; [|samely].
  apply same_bind; auto. intros. samely.
Qed.
Lemma same_closure_args : same w_parse_closure_args parse_closure_args.
Proof.
  intros ts. unfold w_parse_closure_args, parse_closure_args. generalize (S (List.length ts)). intros n. revert ts.
  match goal with |- forall ts, snd (?m' ts) = ?m ts => change (same m' m) end.
  apply same_bind; [samely|]. intros _. apply same_bind; [apply same_closure_loop|]. intros. samely.
Qed.
Lemma same_element pc' pc : same pc' pc -> same (w_parse_element G E pc') (parse_element E pc).
Proof.
  intros Hpc. apply same_bind; [apply same_tag|]. intros t. apply same_bind; [apply same_selectors|]. intros sels.
  apply same_bind; [apply same_attrs|]. intros attrs. apply same_bind; [samely|]. intros [u|]; [samely|].
  apply same_bind; [samely|]. intros [|x ts]; [samely|].
  destruct (peek_group Brace _); [samely|]. destruct (peek_group Paren _); [samely|]. destruct (peek_punct _ _); [|samely].
  apply same_bind; [apply same_closure_args|]. intros args. apply same_bind; [samely|]. intros ts'.
  destruct (peek_group Brace _); [samely|]. destruct (peek_group Paren _); samely.
Qed.
Lemma same_child pc' pc : same pc' pc -> same (w_parse_child G E pc') (parse_child E pc).
Proof.
  intros Hpc. apply same_bind; [apply same_rollback, same_value|]. intros [v|].
  { destruct v as [[[] s|b]| |]; samely. }
  apply same_bind; [samely|]. intros [].
  - apply same_bind; [samely|]. intros _. apply same_bind; [samely|]. intros _. apply same_bind; [now apply same_element|]. intros. samely.
  - apply same_bind; [samely|]. intros []; [|samely]. apply same_bind; [now apply same_element|]. intros. samely.
Qed.
Lemma same_children n : same (w_parse_children G E n) (parse_children E n).
Proof.
  induction n as [|n IH]; [now intros ts|]. intros [|t ts]; [reflexivity|]. cbn [w_parse_children parse_children].
  rewrite <- (same_child _ _ IH (t :: ts)).
  destruct (w_parse_child G E _ (t :: ts)) as [k [[c|e| |w|] r d]]; auto; cbn [snd].
  - rewrite <- (same_bind _ _ (fun cs => w_ret (c :: cs)) (fun cs => ret (c :: cs)) IH (fun a => same_priced _ _) r). reflexivity.
  - assert (H : forall b : bool, same (if b then w_bind (w_emit DExtraSemi) (fun _ => w_bind (w_unwrap (w_parse_punct ";")) (fun _ => w_parse_children G E n))
                 else w_bind (w_emit (DParse e)) (fun _ => w_bind w_take_rest (fun _ => w_parse_children G E n)))
       (if b then bind (emit DExtraSemi) (fun _ => bind (unwrap (parse_punct ";")) (fun _ => parse_children E n))
                 else bind (emit (DParse e)) (fun _ => bind take_rest (fun _ => parse_children E n)))).
    { intros []; samely. }
    rewrite <- (H (peek_punct ";" r) r). reflexivity.
Qed.
End Same.
