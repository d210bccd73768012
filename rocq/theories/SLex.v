(** For examples only: [Lex.v] with spans.  The span of a token is the range of
    its characters in the text. *)
From Verif Require Export Lex SMacro.
Open Scope list_scope.

Fixpoint slex_loop (total n : nat) (s : string) (cur : list stt)
    (st : list (delim * nat * list stt)) : list stt :=
  let at_ (s : string) := (total - String.length s)%nat in
  let sp (a b : string) := Src 0 (at_ a) (at_ b) in
  match n with
  | 0 => rev cur
  | S n =>
      let close r :=
        match st with
        | (d, lo, up) :: st =>
            slex_loop total n r
              (SGroup (DSpan (Src 0 lo (S lo)) (sp s r) (Src 0 lo (at_ r))) d (rev cur) :: up) st
        | [] => rev cur
        end in
      match s with
      | EmptyString => rev cur
      | String c r =>
          if (Ascii.eqb c " " || Ascii.eqb c "010")%bool then slex_loop total n r cur st
          else if Ascii.eqb c "(" then slex_loop total n r [] ((Paren, at_ s, cur) :: st)
          else if Ascii.eqb c "[" then slex_loop total n r [] ((Bracket, at_ s, cur) :: st)
          else if Ascii.eqb c "{" then slex_loop total n r [] ((Brace, at_ s, cur) :: st)
          else if (Ascii.eqb c ")" || Ascii.eqb c "]" || Ascii.eqb c "}")%bool then close r
          else if Ascii.eqb c "'" then
            let '(a, b) := Lex.span (fun x => negb (Ascii.eqb x "'")) r in
            let b := match b with String _ b => b | _ => b end in
            slex_loop total n b (SLit (sp s b) LkStr a :: cur) st
          else if digit c then
            let '(a, b) := Lex.span word_char s in
            match b with
            | String "." (String x y) =>
                if digit x then
                  let '(a', b') := Lex.span word_char (String x y) in
                  slex_loop total n b' (SLit (sp s b') LkFloat (a ++ "." ++ a')%string :: cur) st
                else slex_loop total n b (SLit (sp s b) LkInt a :: cur) st
            | _ => slex_loop total n b (SLit (sp s b) LkInt a :: cur) st
            end
          else if word_char c then
            let '(a, b) := Lex.span word_char s in
            match String.eqb a "r", b with
            | true, String "#" b' =>
                let '(a', b'') := Lex.span word_char b' in
                slex_loop total n b'' (SIdent (sp s b'') (Id true a') :: cur) st
            | _, _ => slex_loop total n b (SIdent (sp s b) (Id false a) :: cur) st
            end
          else
            let spc := match r with
                       | String c' _ => if punct_char c' then Joint else Alone
                       | _ => Alone
                       end in
            slex_loop total n r (SPunct (sp s r) c spc :: cur) st
      end
  end.
Definition slex (s : string) : list stt := slex_loop (String.length s) (S (String.length s)) s [] [].

(** [Span::join] of stable Rust, and of nightly Rust. *)
Definition no_join (a b : span) : option span := None.
Definition range_join (a b : span) : option span :=
  match a, b with
  | Call, Call => Some Call
  | Src f lo hi, Src f' lo' hi' =>
      if Nat.eqb f f' then Some (Src f (Nat.min lo lo') (Nat.max hi hi')) else None
  | _, _ => None
  end.
(** Any [env] with spans: errors of the generic-argument parser are at the place where
    it leaves the stream. *)
Definition with_spans (E : env) (j : span -> span -> option span) : senv :=
  SEnv E j (fun sc ts =>
    match generic_args E (erases ts) with
    | inl (g, r) => inl (firstn (List.length g) ts, skipn (List.length g) ts)
    | inr r =>
        let r' := skipn (List.length ts - List.length r) ts in inr (r', here sc r')
    end).
Definition SE0 : senv := with_spans E0 no_join.
Definition SE1 : senv := with_spans E0 range_join.

(** The text under a span. *)
Definition text (src : string) (s : span) : string :=
  match s with
  | Call => "(call site)"
  | Src _ lo hi => substring lo (hi - lo) src
  end.
(** The errors of a view, each with the text it points to and its position. *)
Definition pointed (E : senv) (src : string) : list (diag * nat * string) :=
  match smview E (slex src) with
  | SErrors ds =>
      map (fun d => (fst d, match snd d with Call => 0 | Src _ lo _ => lo end, text src (snd d))) ds
  | _ => []
  end.

(** The identifiers of an expansion that are not at the call site, each with the text
    it points to. *)
Fixpoint placed_tt (src : string) (t : stt) : list (string * string) :=
  match t with
  | SIdent Call _ => []
  | SIdent s i => [(ident_to_string i, text src s)]
  | SGroup _ _ ts => flat_map (placed_tt src) ts
  | _ => []
  end.
Definition placed (E : senv) (src : string) : list (string * string) :=
  match smview E (slex src) with SExpanded ts => flat_map (placed_tt src) ts | _ => [] end.
