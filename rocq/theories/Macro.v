(** lib.rs and the proc-macro entry point. *)
From Verif Require Export Expand.

(** What an invocation of [mview!] does on stable Rust:
    - [Expanded ts]: the tokens replace the invocation;
    - [Errors ds]: the diagnostics become [compile_error!]s followed by the
      dummy expression [()] (lib.rs:27, proc_macro_error2's [entry_point]);
    - [Panicked w]: the proc macro panicked;
    - [NoFuelLeft]: artefact of the model. *)
Inductive result :=
| Expanded (ts : list tt)
| Errors (ds : list diag)
| Panicked (w : panic)
| NoFuelLeft.

(** Expanding the parsed children, lib.rs:37-64. *)
Definition root_tokens (E : env) (cs : list child) : X (list tt) :=
  match cs with
  | [c] =>
      match c with
      | CSlot _ => xabort DRootSlot
      | _ =>
          ts <- expand_node E [0] c ;;
          xret [TGroup Brace
                  ([pu "#"; TGroup Bracket [kw "allow"; par [kw "unused_braces"]]] ++ ts)]
      end
  | _ =>
      if existsb is_slot cs then xabort DRootSlot
      else
        l <- xseq (expand_nodes E [] 0 cs) ;;
        xret [TGroup Brace
                ([pu "#"; TGroup Bracket [kw "allow"; par [kw "unused_braces"]]]
                 ++ children_fragment_tokens l)]
  end.

(** [mview_impl], lib.rs:24-65, under [#[proc_macro_error]]
    (leptos-mview-macro/src/lib.rs:4-9).  [Children::parse] never returns [Err],
    so the [to_compile_error] branch (lib.rs:31) is the [Fail] case here. *)
Definition mview (E : env) (input : list tt) : result :=
  match parse_children E (S (size input)) input with
  | PR (Ret cs) _ ds =>
      match root_tokens E cs with
      | XR (XRet ts) ds' =>
          match ds ++ ds' with
          | [] => Expanded ts
          | ds'' => Errors ds''
          end
      | XR XAbort ds' => Errors (ds ++ ds')
      | XR (XPanic w) _ => Panicked w
      end
  | PR (Fail e) _ ds => Errors (ds ++ [DParse e])
  | PR Abort _ ds => Errors ds
  | PR (Panic w) _ _ => Panicked w
  | PR NoFuel _ _ => NoFuelLeft
  end.
