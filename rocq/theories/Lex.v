(** A lexer and a printer for writing readable examples.  Not part of the
    model and not used by any theorem about it; only the examples mention it.
    String literals are written with single quotes. *)
From Verif Require Export Macro.
Open Scope list_scope.

Definition char_code (c : ascii) : nat := nat_of_ascii c.
Definition in_range (a b : ascii) (c : ascii) : bool :=
  Nat.leb (char_code a) (char_code c) && Nat.leb (char_code c) (char_code b).
Definition digit (c : ascii) := in_range "0" "9" c.
Definition word_char (c : ascii) :=
  in_range "a" "z" c || in_range "A" "Z" c || digit c || Ascii.eqb c "_".
Definition punct_char (c : ascii) : bool :=
  existsb (Ascii.eqb c) (list_ascii_of_string "!#$%&*+,-./:;<=>?@^|~").

Fixpoint span (p : ascii -> bool) (s : string) : string * string :=
  match s with
  | String c r => if p c then let '(a, b) := span p r in (String c a, b) else (EmptyString, s)
  | EmptyString => (EmptyString, EmptyString)
  end.

Fixpoint lex_loop (n : nat) (s : string) (cur : list tt) (st : list (delim * list tt))
  : list tt :=
  match n with
  | 0 => rev cur
  | S n =>
      let close r :=
        match st with
        | (d, up) :: st => lex_loop n r (TGroup d (rev cur) :: up) st
        | [] => rev cur
        end in
      match s with
      | EmptyString => rev cur
      | String c r =>
          if (Ascii.eqb c " " || Ascii.eqb c "010")%bool then lex_loop n r cur st
          else if Ascii.eqb c "(" then lex_loop n r [] ((Paren, cur) :: st)
          else if Ascii.eqb c "[" then lex_loop n r [] ((Bracket, cur) :: st)
          else if Ascii.eqb c "{" then lex_loop n r [] ((Brace, cur) :: st)
          else if (Ascii.eqb c ")" || Ascii.eqb c "]" || Ascii.eqb c "}")%bool then close r
          else if Ascii.eqb c "'" then
            let '(a, b) := span (fun x => negb (Ascii.eqb x "'")) r in
            lex_loop n (match b with String _ b => b | _ => b end) (TLit LkStr a :: cur) st
          else if digit c then
            let '(a, b) := span word_char s in
            match b with
            | String "." (String x y) =>
                if digit x then
                  let '(a', b') := span word_char (String x y) in
                  lex_loop n b' (TLit LkFloat (a ++ "." ++ a')%string :: cur) st
                else lex_loop n b (TLit LkInt a :: cur) st
            | _ => lex_loop n b (TLit LkInt a :: cur) st
            end
          else if word_char c then
            let '(a, b) := span word_char s in
            match String.eqb a "r", b with
            | true, String "#" b' =>
                let '(a', b'') := span word_char b' in lex_loop n b'' (TIdent (Id true a') :: cur) st
            | _, _ => lex_loop n b (TIdent (Id false a) :: cur) st
            end
          else
            let sp := match r with
                      | String c' _ => if punct_char c' then Joint else Alone
                      | _ => Alone
                      end in
            lex_loop n r (TPunct c sp :: cur) st
      end
  end.
Definition lex (s : string) : list tt := lex_loop (S (String.length s)) s [] [].

Definition s_open (d : delim) := match d with Paren => "(" | Bracket => "[" | Brace => "{" end.
Definition s_close (d : delim) := match d with Paren => ")" | Bracket => "]" | Brace => "}" end.
Fixpoint show_tt (t : tt) : string :=
  (match t with
   | TIdent i => ident_to_string i ++ " "
   | TPunct c Joint => String c ""
   | TPunct c Alone => String c " "
   | TLit LkStr s => "'" ++ s ++ "' "
   | TLit _ s => s ++ " "
   | TGroup d l => s_open d ++ " " ++ fold_right (fun t s => show_tt t ++ s) "" l ++ s_close d ++ " "
   end)%string.
Definition show (l : list tt) : string :=
  fold_right (fun t s => (show_tt t ++ s)%string) ""%string l.

(** An environment for examples: a scanner of balanced angle brackets and the
    insertion order. *)
Fixpoint scan (depth : nat) (ts : list tt) : option (list tt * list tt) :=
  match ts with
  | [] => None
  | TPunct c sp :: r =>
      if Ascii.eqb c "<" then
        match scan (S depth) r with Some (u, r') => Some (TPunct c sp :: u, r') | None => None end
      else if Ascii.eqb c ">" then
        match depth with
        | 0 => None
        | 1 => Some ([TPunct c sp], r)
        | S d => match scan d r with Some (u, r') => Some (TPunct c sp :: u, r') | None => None end
        end
      else
        match scan depth r with Some (u, r') => Some (TPunct c sp :: u, r') | None => None end
  | t :: r => match scan depth r with Some (u, r') => Some (t :: u, r') | None => None end
  end.
Definition scan_args (ts : list tt) : (list tt * list tt) + list tt :=
  match ts with
  | TPunct c sp :: r =>
      if Ascii.eqb c "<" then
        match scan 1 r with
        | Some (u, r') => inl (TPunct c sp :: u, r')
        | None => inr r
        end
      else inr ts
  | _ => inr ts
  end.
Definition E0 : env := Env scan_args (fun _ ks => ks).

Definition run_mview (s : string) : string + result :=
  match mview E0 (lex s) with Expanded ts => inl (show ts) | r => inr r end.
