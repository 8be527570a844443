(** Rust's tokens, for the conformance examples: source text to token trees, spaced as
    [quote!] spaces them (a punctuation character is joint inside an operator and before the
    name of a lifetime).  Not covered: exponents, block comments, byte strings. *)
From Coq Require Import String.
From Verif Require Import Base Token Types Values Ast Env Concrete.
Open Scope list_scope.

Inductive lexeme := LTok (t : tt) | LOpen (d : delim) | LClose (d : delim).

Definition ident_start (c : chr) : bool := is_alpha c || N.eqb c 95.
Definition ident_continue (c : chr) : bool := is_alnum c || N.eqb c 95.

Fixpoint take_while (f : chr -> bool) (x : str) : str * str :=
  match x with
  | c :: r => if f c then let (a, b) := take_while f r in (c :: a, b) else ([], x)
  | [] => ([], [])
  end.

Fixpoint strip (p x : str) : option str :=
  match p, x with
  | [], _ => Some x
  | a :: p', b :: x' => if N.eqb a b then strip p' x' else None
  | _, [] => None
  end.

(** The value of a string literal and the text after its closing quote. *)
Fixpoint string_body (x : str) : option (str * str) :=
  match x with
  | [] => None
  | c :: r =>
      if N.eqb c 34 then Some ([], r)
      else if N.eqb c 92 then
        match r with
        | e :: r' =>
            let v := if N.eqb e 110 then 10%N else if N.eqb e 116 then 9%N else if N.eqb e 114 then 13%N
                     else if N.eqb e 48 then 0%N else e in
            option_map (fun '(a, b) => (v :: a, b)) (string_body r')
        | [] => None
        end
      else option_map (fun '(a, b) => (c :: a, b)) (string_body r)
  end.

(** The value of a raw string with the given closing and the text after it. *)
Fixpoint raw_body (closing x : str) : option (str * str) :=
  match strip closing x with
  | Some r => Some ([], r)
  | None => match x with
            | c :: r => option_map (fun '(a, b) => (c :: a, b)) (raw_body closing r)
            | [] => None
            end
  end.

(** The operators of more than one character, the longest first. *)
Definition operators : list str :=
  map txt ["<<="; ">>="; "..."; "..="; "&&"; "||"; "<<"; ">>"; "=="; "!="; "<="; ">="; "+="; "-="; "*=";
           "/="; "%="; "^="; "&="; "|="; ".."; "::"; "->"; "=>"]%string.

Fixpoint find_operator (ops : list str) (x : str) : option (str * str) :=
  match ops with
  | [] => None
  | o :: r => match strip o x with Some rest => Some (o, rest) | None => find_operator r x end
  end.

Fixpoint op_tokens (o : str) : list tt :=
  match o with
  | [] => []
  | [c] => [TPunct c false]
  | c :: r => TPunct c true :: op_tokens r
  end.

Definition not_newline (c : chr) : bool := negb (N.eqb c 10).

(** The digits of a number in a base, as far as they go, its value and the rest. *)
Definition digit_value (c : chr) : N :=
  if is_digit c then (c - 48)%N else if in_range 97 102 c then (c - 87)%N else if in_range 65 70 c then (c - 55)%N else 255%N.
Fixpoint digits_in (base acc : N) (x : str) : N :=
  match x with
  | c :: r => if N.eqb c 95 then digits_in base acc r
              else if (digit_value c <? base)%N then digits_in base (acc * base + digit_value c)%N r else acc
  | [] => acc
  end.
Definition number (x : str) : tt * str :=
  let (a, r) := take_while ident_continue x in
  let int := match strip (txt "0x") a, strip (txt "0b") a, strip (txt "0o") a with
             | Some h, _, _ => LInt (decimal (digits_in 16 0 h)) a
             | None, Some b, _ => LInt (decimal (digits_in 2 0 b)) a
             | None, None, Some o => LInt (decimal (digits_in 8 0 o)) a
             | None, None, None => LInt (filter is_digit (fst (take_while (fun c => is_digit c || N.eqb c 95) a))) a
             end in
  match r with
  | p :: c :: r' =>
      if N.eqb p 46 && is_digit c then
        let (f, r'') := take_while ident_continue (c :: r') in (TLit (LOther (a ++ [46%N] ++ f)), r'')
      else (TLit int, r)
  | _ => (TLit int, r)
  end.

(** One step: the lexemes at the head of the text and what follows. *)
Definition next (x : str) : option (list lexeme * str) :=
  match x with
  | [] => None
  | c :: r =>
      if is_space c then Some ([], r)
      else if N.eqb c 40 then Some ([LOpen Paren], r)
      else if N.eqb c 41 then Some ([LClose Paren], r)
      else if N.eqb c 91 then Some ([LOpen Bracket], r)
      else if N.eqb c 93 then Some ([LClose Bracket], r)
      else if N.eqb c 123 then Some ([LOpen Brace], r)
      else if N.eqb c 125 then Some ([LClose Brace], r)
      else if N.eqb c 34 then
        option_map (fun '(v, r') => ([LTok (TLit (LStr v []))], r')) (string_body r)
      else
        match strip (txt "///") x, strip (txt "//") x with
        | Some r', _ =>
            let (v, r'') := take_while not_newline r' in
            Some ([LTok (p1 "#"); LOpen Bracket; LTok (i "doc"); LTok (p1 "="); LTok (TLit (LStr v [])); LClose Bracket], r'')
        | None, Some r' => Some ([], snd (take_while not_newline r'))
        | None, None =>
            match strip (txt "r""") x, strip (txt "r#""") x, strip (txt "r#") x with
            | Some r', _, _ =>
                option_map (fun '(v, r'') => ([LTok (TLit (LStr v (txt "r""" ++ v ++ txt """")))], r'')) (raw_body (txt """") r')
            | None, Some r', _ =>
                option_map (fun '(v, r'') => ([LTok (TLit (LStr v (txt "r#""" ++ v ++ txt """#")))], r''))
                  (raw_body (txt """#") r')
            | None, None, Some r' => let (a, r'') := take_while ident_continue r' in Some ([LTok (TIdent (txt "r#" ++ a))], r'')
            | None, None, None =>
                if ident_start c then let (a, r') := take_while ident_continue x in Some ([LTok (TIdent a)], r')
                else if is_digit c then let (t, r') := number x in Some ([LTok t], r')
                else if N.eqb c 39 then
                  match nth_error r 1 with
                  | Some 39%N => Some ([LTok (TLit (LOther (firstn 3 x)))], skipn 3 x)
                  | _ => let (name, r'') := take_while ident_continue r in Some ([LTok (TPunct c true); LTok (TIdent name)], r'')
                  end
                else
                  match find_operator operators x with
                  | Some (o, r') => Some (map LTok (op_tokens o), r')
                  | None => Some ([LTok (TPunct c false)], r)
                  end
            end
        end
  end.

Fixpoint lexemes (fuel : nat) (x : str) : option (list lexeme) :=
  match fuel, x with
  | _, [] => Some []
  | 0, _ => None
  | S fuel', _ =>
      match next x with
      | Some (l, r) => option_map (app l) (lexemes fuel' r)
      | None => None
      end
  end.

(** Token trees from lexemes; [stack] holds what precedes each open delimiter, reversed. *)
Fixpoint trees (l : list lexeme) (here : list tt) (stack : list (delim * list tt)) : option (list tt) :=
  match l with
  | [] => match stack with [] => Some (rev here) | _ => None end
  | LTok t :: r => trees r (t :: here) stack
  | LOpen d :: r => trees r [] ((d, here) :: stack)
  | LClose d :: r =>
      match stack with
      | (d', outer) :: stack' => if delim_eqb d d' then trees r (TGroup d (rev here) :: outer) stack' else None
      | [] => None
      end
  end.

Definition lex_text (x : str) : option (list tt) :=
  match lexemes (List.length x) x with Some l => trees l [] [] | None => None end.
(** Examples only lex what is well-formed. *)
Definition lex (x : string) : list tt :=
  match lex_text (txt x) with Some ts => ts | None => [TIdent (txt "lexical error")] end.

Example lex_example :
  lex "fn f<'a>(x: &'a str) -> Vec<Vec<u8>> { r#type(1_0u8, ""a\""b"", 'c') } // end"
  = [i "fn"; i "f"; p1 "<"; pj "'"; i "a"; p1 ">"; paren [i "x"; p1 ":"; p1 "&"; pj "'"; i "a"; i "str"];
     pj "-"; p1 ">"; i "Vec"; p1 "<"; i "Vec"; p1 "<"; i "u8"; pj ">"; p1 ">";
     brace [i "r#type"; paren [TLit (LInt (txt "10") (txt "1_0u8")); p1 ","; ls "a""b"; p1 ","; TLit (LOther (txt "'c'"))]]].
Proof. vm_compute. reflexivity. Qed.
