(** The model with spans, part 5: lib.rs and the two entry points (see [Macro.v] and
    [Nightly.v]). *)
From Verif Require Export SExpand.
Open Scope list_scope.
Open Scope sexpand_scope.

(** Expanding the parsed children, lib.rs:37-64.  A slot alone is reported at its
    keyword, otherwise the first one at its tag. *)
Definition sroot_tokens (E : senv) (cs : list schild) : SX (list stt) :=
  let attr := [spu Call "#"; sgroup Call Bracket [skw Call "allow"; spar Call [skw Call "unused_braces"]]] in
  match cs with
  | [c] =>
      match c with
      | SCSlot s _ => sxabort DRootSlot s
      | _ =>
          ts <- sexpand_node E [0] c ;;
          sxret [sgroup Call Brace (attr ++ ts)]
      end
  | _ =>
      match find sis_slot cs with
      | Some c => sxabort DRootSlot (node_span E c)
      | None =>
          l <- srun (sexpand_nodes E [] 0 cs) ;;
          sxret [sgroup Call Brace (attr ++ schildren_fragment_tokens (map snd l) Call)]
      end
  end.

Inductive sresult :=
| SExpanded (ts : list stt)
| SErrors (ds : list sdiag)
| SPanicked (w : panic)
| SNoFuelLeft.

(** [mview_impl], lib.rs:24-65, on stable Rust.  [syn::parse2] parses with the call
    site as scope. *)
Definition smview (E : senv) (input : list stt) : sresult :=
  match sparse_children E (S (size (erases input))) Call input with
  | SPR (SRet cs) _ ds =>
      match sroot_tokens E cs with
      | SXR (XRet ts) ds' =>
          match ds ++ ds' with
          | [] => SExpanded ts
          | ds'' => SErrors ds''
          end
      | SXR XAbort ds' => SErrors (ds ++ ds')
      | SXR (XPanic w) _ => SPanicked w
      end
  | SPR (SFail e s) _ ds => SErrors (ds ++ [(DParse e, err_span E s)])
  | SPR SAbort _ ds => SErrors ds
  | SPR (SPanic w) _ _ => SPanicked w
  | SPR SNoFuel _ _ => SNoFuelLeft
  end.

Inductive sanswer :=
| SGave (ts : list stt) (ds : list sdiag)
| SCrashed (w : panic)
| SOutOfFuel.

(** The dummy of lib.rs:27. *)
Definition sdummy : list stt := [spar Call []].

(** The same with the feature [nightly]. *)
Definition smview_nightly (E : senv) (input : list stt) : sanswer :=
  match sparse_children E (S (size (erases input))) Call input with
  | SPR (SRet cs) _ ds =>
      match sroot_tokens E cs with
      | SXR (XRet ts) ds' => SGave ts (ds ++ ds')
      | SXR XAbort ds' => SGave sdummy (ds ++ ds')
      | SXR (XPanic w) _ => SCrashed w
      end
  | SPR (SFail e s) _ ds => SGave sdummy (ds ++ [(DParse e, err_span E s)])
  | SPR SAbort _ ds => SGave sdummy ds
  | SPR (SPanic w) _ _ => SCrashed w
  | SPR SNoFuel _ _ => SOutOfFuel
  end.
