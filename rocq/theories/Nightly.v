(** The macro with the feature ["nightly"] (/repo/Cargo.toml:23,
    leptos-mview-macro/Cargo.toml:21), which only switches
    [proc_macro_error2] to its other back end: diagnostics are handed to the
    compiler at once, so the tokens returned by [mview_impl] are used even if
    there were errors; [abort!] leaves only the dummy [()] (lib.rs:27).

    - [Gave ts ds]: the invocation is replaced by [ts], and [ds] are reported;
    - [Crashed w]: the proc macro panicked;
    - [OutOfFuel]: artefact of the model.

    A failing [Children::parse] would return [compile_error!] tokens
    (lib.rs:31), here the dummy; it never fails ([children_of_cases]). *)
From Verif Require Export Macro.
Open Scope list_scope.

Inductive answer :=
| Gave (ts : list tt) (ds : list diag)
| Crashed (w : panic)
| OutOfFuel.

Definition dummy : list tt := [TGroup Paren []].

Definition mview_nightly (E : env) (input : list tt) : answer :=
  match parse_children E (S (size input)) input with
  | PR (Ret cs) _ ds =>
      match root_tokens E cs with
      | XR (XRet ts) ds' => Gave ts (ds ++ ds')
      | XR XAbort ds' => Gave dummy (ds ++ ds')
      | XR (XPanic w) _ => Crashed w
      end
  | PR (Fail e) _ ds => Gave dummy (ds ++ [DParse e])
  | PR Abort _ ds => Gave dummy ds
  | PR (Panic w) _ _ => Crashed w
  | PR NoFuel _ _ => OutOfFuel
  end.
