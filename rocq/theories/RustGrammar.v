(** A large part of Rust's grammar as syn reads it, for the conformance examples: recognisers
    that return what remains of the tokens, and parsers of items and statements into the
    structure of Item.v.  Everything is read with bounded recursion ([fuel]). *)
From Coq Require Import String.
From Verif Require Import Base Token Item Parse Concrete.
Open Scope list_scope.

Definition rust_keywords : list str :=
  map txt ["_"; "abstract"; "as"; "async"; "await"; "become"; "box"; "break"; "const"; "continue"; "crate"; "do";
           "dyn"; "else"; "enum"; "extern"; "false"; "final"; "fn"; "for"; "if"; "impl"; "in"; "let"; "loop";
           "macro"; "match"; "mod"; "move"; "mut"; "override"; "priv"; "pub"; "ref"; "return"; "Self"; "self";
           "static"; "struct"; "super"; "trait"; "true"; "try"; "type"; "typeof"; "unsafe"; "unsized"; "use";
           "virtual"; "where"; "while"; "yield"]%string.
Definition plain_ident (x : str) : bool := negb (existsb (str_eqb x) rust_keywords).
Definition segment_ident (x : str) : bool :=
  plain_ident x || existsb (str_eqb x) (map txt ["self"; "Self"; "super"; "crate"; "try"]%string).

(** ** Matching at the head of a stream *)
Definition word (x : string) (ts : list tt) : option (list tt) :=
  match ts with TIdent y :: r => if str_eqb (txt x) y then Some r else None | _ => None end.
(** One of the words in a text. *)
Fixpoint words_in (here x : str) : list str :=
  match x with
  | [] => [rev here]
  | c :: r => if N.eqb c 32 then rev here :: words_in [] r else words_in (c :: here) r
  end.
Definition one_of (l : string) (ts : list tt) : option (list tt) :=
  match ts with TIdent y :: r => if existsb (str_eqb y) (words_in [] (txt l)) then Some r else None | _ => None end.
Definition ident (ts : list tt) : option (list tt) :=
  match ts with TIdent y :: r => if plain_ident y then Some r else None | _ => None end.
(** A character, alone or as the first one of an operator. *)
Definition ch (x : string) (ts : list tt) : option (list tt) :=
  match ts with TPunct c _ :: r => if N.eqb c (hd 0%N (txt x)) then Some r else None | _ => None end.
(** Exactly an operator. *)
Fixpoint op_chars (o : str) (ts : list tt) : option (list tt) :=
  match o, ts with
  | [c], TPunct d j :: r => if N.eqb c d && negb j then Some r else None
  | c :: o', TPunct d j :: r => if N.eqb c d && j then op_chars o' r else None
  | _, _ => None
  end.
Definition op (x : string) (ts : list tt) : option (list tt) := op_chars (txt x) ts.
Definition lifetime (ts : list tt) : option (list tt) :=
  match ts with TPunct c true :: TIdent _ :: r => if N.eqb c 39 then Some r else None | _ => None end.
Definition group (d : delim) (ts : list tt) : option (list tt * list tt) :=
  match ts with TGroup d' g :: r => if delim_eqb d d' then Some (g, r) else None | _ => None end.

Definition parser := list tt -> option (list tt).
Definition then_ (f g : parser) : parser := fun ts => match f ts with Some r => g r | None => None end.
Definition or_ (f g : parser) : parser := fun ts => match f ts with Some r => Some r | None => g ts end.
Definition opt (f : parser) : parser := or_ f Some.
Infix ";;;" := then_ (at level 61, right associativity).
Infix "<|>" := or_ (at level 62, right associativity).
Definition all (f : parser) (ts : list tt) : bool := match f ts with Some [] => true | _ => false end.
Definition inside (d : delim) (f : parser) : parser :=
  fun ts => match group d ts with Some (g, r) => if all f g then Some r else None | None => None end.
Definition any_group : parser := fun ts => match ts with TGroup _ _ :: r => Some r | _ => None end.
Definition literal : parser := fun ts => match ts with TLit _ :: r => Some r | _ => None end.
Definition string_lit : parser := fun ts => match ts with TLit (LStr _ _) :: r => Some r | _ => None end.
Definition rest_ : parser := fun _ => Some [].
(** Succeeds without reading if [f] fails. *)
Definition unless (f : parser) : parser := fun ts => match f ts with Some _ => None | None => Some ts end.
Definition at_end : parser := fun ts => match ts with [] => Some [] | _ => None end.
(** The tokens read. *)
Definition upto (ts rest : list tt) : list tt := firstn (List.length ts - List.length rest) ts.

Definition binary_operators : list string :=
  ["<<="; ">>="; "&&"; "||"; "<<"; ">>"; "=="; "!="; "<="; ">="; "+="; "-="; "*="; "/="; "%="; "^="; "&="; "|=";
   "+"; "-"; "*"; "/"; "%"; "^"; "&"; "|"; "<"; ">"; "="]%string.
Definition binary_operator : parser := fold_right (fun o p => op o <|> p) (fun _ => None) binary_operators.

(** The tokens of attributes are balanced, so they can be skipped. *)
Fixpoint take_attrs (ts : list tt) : list attr * list tt :=
  match ts with
  | TPunct c _ :: TGroup Bracket m :: r =>
      if N.eqb c 35 then let (a, r') := take_attrs r in ({| is_inner := false; meta := m |} :: a, r') else ([], ts)
  | _ => ([], ts)
  end.
Fixpoint take_inner_attrs (ts : list tt) : list attr * list tt :=
  match ts with
  | TPunct c _ :: TPunct d _ :: TGroup Bracket m :: r =>
      if N.eqb c 35 && N.eqb d 33 then let (a, r') := take_inner_attrs r in ({| is_inner := true; meta := m |} :: a, r')
      else ([], ts)
  | _ => ([], ts)
  end.
Definition attrs_ : parser := fun ts => Some (snd (take_attrs ts)).
Definition vis_ : parser :=
  opt (word "pub" ;;; opt (fun ts => match group Paren ts with
                                     | Some (g, r) => match one_of "crate self super in" g with Some _ => Some r | None => None end
                                     | None => None
                                     end)).

(** ** Nonterminals *)
Inductive nt :=
| NType (plus : bool) | NBareArg | NPathType | NPath (expr_style : bool) | NSegments (expr_style : bool) | NAngle | NArg
| NBounds (plus : bool) | NBound | NGenerics | NParam | NReturn | NWhere | NPredicates | NFnArg
| NExpr (structs : bool) | NOperators (structs : bool) | NTerm (structs : bool) | NPostfix | NAtom (structs : bool)
| NBlockLike | NElse | NFieldValue | NClosureArgs | NBlock | NArms | NPat | NPat1 | NLet | NUse
| NSig | NMeta | NList (x : nt).

Section Grammar.
(** Statements in braces, see below. *)
Context (block : list tt -> bool).

Fixpoint go (fuel : nat) (n : nt) (ts : list tt) : option (list tt) :=
  match fuel with
  | 0 => None
  | S fuel' =>
      let g := go fuel' in
      (match n with
      | NList x => at_end <|> (g x ;;; (at_end <|> (op "," ;;; g (NList x))))
      | NType plus =>
          inside Paren (g (NList (NType true)))
          <|> inside Bracket (g (NType true) ;;; (at_end <|> (op ";" ;;; g (NExpr true))))
          <|> inside NoDelim (g (NType true))
          <|> (ch "&" ;;; opt lifetime ;;; opt (word "mut") ;;; g (NType false))
          <|> (op "*" ;;; one_of "const mut" ;;; g (NType false))
          <|> op "!"
          <|> (ch "<" ;;; g (NType true) ;;; opt (word "as" ;;; g NPathType) ;;; ch ">" ;;; op "::" ;;; g (NSegments false))
          <|> word "_"
          <|> (one_of "dyn impl" ;;; g (NBounds plus))
          <|> (opt (word "unsafe") ;;; opt (word "extern" ;;; opt string_lit) ;;; word "fn"
               ;;; inside Paren (g (NList NBareArg)) ;;; g NReturn)
          <|> (word "for" ;;; g NGenerics ;;; g (NType plus))
          <|> (g (NPath false) ;;; op "!" ;;; any_group)
          <|> (g (NPath false) ;;; (if plus then opt (op "+" ;;; opt (g (NBounds true))) else Some))
      | NBareArg => ((ident <|> word "_") ;;; op ":" ;;; g (NType true)) <|> g (NType true)
      | NPathType =>
          fun ts =>
            match g (NPath false) ts with
            | Some r => match rev (upto ts r) with
                        | TPunct _ _ :: _ => Some r   (* the last segment has arguments *)
                        | _ => opt (inside Paren (g (NList (NType true))) ;;; g NReturn) r
                        end
            | None => None
            end
      | NPath e => opt (op "::") ;;; g (NSegments e)
      | NSegments e =>
          (fun ts => match ts with TIdent x :: r => if segment_ident x then Some r else None | _ => None end)
          ;;; (if e then opt (op "::" ;;; ch "<" ;;; g NAngle)
               else ((unless (op "<=") ;;; ch "<" ;;; g NAngle) <|> opt (op "::" ;;; ch "<" ;;; g NAngle)))
          ;;; ((unless (op "::" ;;; unless (inside Paren rest_)) ;;; Some) <|> (op "::" ;;; g (NSegments e)))
      | NAngle => ch ">" <|> (g NArg ;;; (ch ">" <|> (op "," ;;; g NAngle)))
      | NArg =>
          lifetime <|> literal <|> (op "-" ;;; literal) <|> inside Brace rest_
          <|> (ident ;;; op "=" ;;; g (NType true))
          <|> (ident ;;; op ":" ;;; g (NBounds true))
          <|> g (NType true)
      | NBounds plus => g NBound ;;; (if plus then opt (op "+" ;;; opt (g (NBounds true))) else Some)
      | NBound =>
          lifetime <|> inside Paren (g NBound) <|> (op "?" ;;; g NBound) <|> (word "for" ;;; g NGenerics ;;; g NBound)
          <|> g NPathType
      (* parameters in angle brackets *)
      | NGenerics => ch "<" ;;; g NParam
      | NParam =>
          ch ">"
          <|> (attrs_
               ;;; ((lifetime ;;; opt (op ":" ;;; opt (g (NBounds true))))
                    <|> (word "const" ;;; ident ;;; op ":" ;;; g (NType true) ;;; opt (op "=" ;;; (literal <|> ident <|> inside Brace rest_)))
                    <|> (ident ;;; opt (op ":" ;;; opt (g (NBounds true))) ;;; opt (op "=" ;;; g (NType true))))
               ;;; (ch ">" <|> (op "," ;;; g NParam)))
      | NReturn => opt (op "->" ;;; g (NType false))
      | NWhere => opt (word "where" ;;; g NPredicates)
      | NPredicates =>
          opt (((lifetime ;;; op ":") <|> (opt (word "for" ;;; g NGenerics) ;;; g (NType false) ;;; op ":"))
               ;;; opt (g (NBounds true)) ;;; opt (op "," ;;; g NPredicates))
      | NFnArg =>
          attrs_ ;;; ((opt (ch "&" ;;; opt lifetime) ;;; opt (word "mut") ;;; word "self" ;;; opt (op ":" ;;; g (NType true)))
                      <|> (g NPat ;;; op ":" ;;; g (NType true))
                      <|> op "...")
      | NSig =>
          opt (word "const") ;;; opt (word "async") ;;; opt (word "unsafe") ;;; opt (word "extern" ;;; opt string_lit)
          ;;; word "fn" ;;; ident ;;; opt (g NGenerics) ;;; inside Paren (g (NList NFnArg)) ;;; g NReturn ;;; g NWhere
      | NExpr s =>
          attrs_ ;;; (((op ".." <|> op "..=") ;;; opt (g (NTerm s) ;;; g (NOperators s)))
                      <|> (g (NTerm s) ;;; g (NOperators s)))
      | NOperators s =>
          opt (((op "..=" <|> op "..") ;;; opt (g (NTerm s) ;;; g (NOperators s)))
               <|> (binary_operator ;;; g (NTerm s) ;;; g (NOperators s)))
      | NTerm s =>
          (ch "&" ;;; opt (word "mut") ;;; g (NTerm s))
          <|> ((op "*" <|> op "-" <|> op "!") ;;; g (NTerm s))
          <|> (g (NAtom s) ;;; g NPostfix)
      | NPostfix =>
          opt (((op "." ;;; (literal <|> word "await"
                             <|> (ident ;;; opt (op "::" ;;; ch "<" ;;; g NAngle) ;;; opt (inside Paren (g (NList (NExpr true)))))))
                <|> op "?"
                <|> inside Paren (g (NList (NExpr true)))
                <|> inside Bracket (g (NExpr true))
                <|> (word "as" ;;; g (NType false)))
               ;;; g NPostfix)
      | NAtom s =>
          literal <|> one_of "true false"
          <|> inside Paren (g (NList (NExpr true)))
          <|> inside Bracket (g (NList (NExpr true)))
          <|> inside Bracket (g (NExpr true) ;;; op ";" ;;; g (NExpr true))
          <|> inside NoDelim (g (NExpr true))
          <|> g NBlockLike
          <|> (opt (word "move") ;;; (op "||" <|> (op "|" ;;; g NClosureArgs))
               ;;; ((op "->" ;;; g (NType false) ;;; g NBlock) <|> g (NExpr s)))
          <|> (one_of "return break" ;;; opt (g (NExpr s)))
          <|> word "continue"
          <|> (word "let" ;;; g NPat ;;; op "=" ;;; g (NTerm false))
          <|> (g (NPath true) ;;; op "!" ;;; any_group)
          <|> (ch "<" ;;; g (NType true) ;;; opt (word "as" ;;; g NPathType) ;;; ch ">" ;;; op "::" ;;; g (NSegments true))
          <|> (if s then g (NPath true) ;;; inside Brace (g (NList NFieldValue)) else fun _ => None)
          <|> g (NPath true)
      | NBlockLike =>
          g NBlock
          <|> (opt (lifetime ;;; op ":")
               ;;; ((word "if" ;;; g (NExpr false) ;;; g NBlock ;;; opt (word "else" ;;; g NElse))
                    <|> (word "match" ;;; g (NExpr false) ;;; inside Brace (g NArms))
                    <|> (word "loop" ;;; g NBlock)
                    <|> (word "while" ;;; g (NExpr false) ;;; g NBlock)
                    <|> (word "for" ;;; g NPat ;;; word "in" ;;; g (NExpr false) ;;; g NBlock)
                    <|> (one_of "unsafe async const" ;;; opt (word "move") ;;; g NBlock)))
      | NElse => g NBlock <|> (word "if" ;;; g (NExpr false) ;;; g NBlock ;;; opt (word "else" ;;; g NElse))
      | NArms =>
          at_end
          <|> (attrs_ ;;; g NPat ;;; opt (word "if" ;;; g (NExpr true)) ;;; op "=>"
               ;;; ((g NBlockLike ;;; opt (op ",") ;;; g NArms)
                    <|> (g (NExpr true) ;;; (at_end <|> (op "," ;;; g NArms)))))
      | NFieldValue => (op ".." ;;; g (NExpr true)) <|> ((ident <|> literal) ;;; opt (op ":" ;;; g (NExpr true)))
      | NClosureArgs =>
          op "|" <|> (g NPat1 ;;; opt (op ":" ;;; g (NType true)) ;;; (op "|" <|> (op "," ;;; g NClosureArgs)))
      | NBlock => fun ts => match group Brace ts with Some (b, r) => if block b then Some r else None | None => None end
      | NPat => opt (op "|") ;;; g NPat1 ;;; opt (op "|" ;;; g NPat)
      | NPat1 =>
          word "_" <|> op ".."
          <|> (opt (op "-") ;;; literal ;;; opt ((op "..=" <|> op "..") ;;; opt (op "-") ;;; literal))
          <|> one_of "true false"
          <|> (ch "&" ;;; opt (word "mut") ;;; g NPat1)
          <|> (opt (word "ref") ;;; opt (word "mut") ;;; ident ;;; op "@" ;;; g NPat1)
          <|> (word "ref" ;;; opt (word "mut") ;;; ident)
          <|> (word "mut" ;;; ident)
          <|> inside Paren (g (NList NPat))
          <|> inside Bracket (g (NList NPat))
          <|> (g (NPath true) ;;; op "!" ;;; any_group)
          <|> (g (NPath true) ;;; inside Paren (g (NList NPat)))
          <|> (g (NPath true) ;;; inside Brace rest_)
          <|> g (NPath true)
      | NLet =>
          attrs_ ;;; word "let" ;;; g NPat ;;; opt (op ":" ;;; g (NType true))
          ;;; opt (op "=" ;;; g (NExpr true) ;;; opt (word "else" ;;; g NBlock)) ;;; op ";"
      | NUse =>
          opt (op "::")
          ;;; (op "*" <|> inside Brace (g (NList NUse))
               <|> ((fun ts => match ts with TIdent x :: r => if segment_ident x then Some r else None | _ => None end)
                    ;;; ((op "::" ;;; g NUse) <|> opt (word "as" ;;; (ident <|> word "_")))))
      | NMeta => g (NPath true) ;;; (any_group <|> opt (op "=" ;;; g (NExpr true)))
      end) ts
  end.
End Grammar.

(** ** Items and statements *)
Section Punctuated.
Context {A : Type} (f : list tt -> option (A * list tt)).
(** Elements separated by commas, and whether there is a comma after the last. *)
Fixpoint separated (fuel : nat) (ts : list tt) : option (list A * bool) :=
  match fuel, ts with
  | _, [] => Some ([], false)
  | 0, _ => None
  | S fuel', _ =>
      match f ts with
      | Some (x, []) => Some ([x], false)
      | Some (x, r) =>
          match op "," r with
          | Some [] => Some ([x], true)
          | Some r' => match separated fuel' r' with Some (l, t) => Some (x :: l, t) | None => None end
          | None => None
          end
      | None => None
      end
  end.
Fixpoint sequence (fuel : nat) (ts : list tt) : option (list A) :=
  match fuel, ts with
  | _, [] => Some []
  | 0, _ => None
  | S fuel', _ => match f ts with Some (x, r) => option_map (cons x) (sequence fuel' r) | None => None end
  end.
End Punctuated.

(** Up to and with the first token that satisfies [f]; groups are not entered. *)
Fixpoint span (f : tt -> bool) (ts : list tt) : option (list tt * tt * list tt) :=
  match ts with
  | [] => None
  | t :: r => if f t then Some ([], t, r) else match span f r with Some (a, x, b) => Some (t :: a, x, b) | None => None end
  end.
Definition is_brace (t : tt) : bool := match t with TGroup Brace _ => true | _ => false end.

Section Items.
(** The recogniser and the parser of statements, one level down. *)
Context (g : nt -> parser) (stmts : list tt -> option (list stmt)).
Context (items : list tt -> option (list item)).

Definition is_fn (ts : list tt) : bool :=
  match (opt (word "const") ;;; opt (word "async") ;;; opt (word "unsafe") ;;; opt (word "extern" ;;; opt string_lit) ;;; word "fn") ts with
  | Some _ => true
  | None => false
  end.
Definition field_ (named : bool) (ts : list tt) : option (field * list tt) :=
  let (a, r0) := take_attrs ts in
  match vis_ r0 with
  | Some r1 =>
      let name := if named then match r1 with TIdent x :: r => if plain_ident x then match op ":" r with Some r' => Some (Some x, r') | None => None end else None | _ => None end
                  else Some (None, r1) in
      match name with
      | Some (x, r2) =>
          match g (NType true) r2 with
          | Some r3 => Some ({| f_attrs := a; f_vis := upto r0 r1; f_ident := x; f_ty := upto r2 r3 |}, r3)
          | None => None
          end
      | None => None
      end
  | None => None
  end.
Definition fields_ (ts : list tt) : option (fields * list tt) :=
  match ts with
  | TGroup Brace l :: r => option_map (fun '(l, t) => (FNamed l t, r)) (separated (field_ true) (List.length l) l)
  | TGroup Paren l :: r => option_map (fun '(l, t) => (FUnnamed l t, r)) (separated (field_ false) (List.length l) l)
  | _ => Some (FUnit, ts)
  end.
Definition variant_ (ts : list tt) : option (variant * list tt) :=
  let (a, r0) := take_attrs ts in
  match r0 with
  | TIdent x :: r1 =>
      if plain_ident x then
        match fields_ r1 with
        | Some (f, r2) =>
            match op "=" r2 with
            | Some r3 => match g (NExpr true) r3 with
                         | Some r4 => Some ({| v_attrs := a; v_ident := x; v_fields := f; v_disc := Some (upto r3 r4) |}, r4)
                         | None => None
                         end
            | None => Some ({| v_attrs := a; v_ident := x; v_fields := f; v_disc := None |}, r2)
            end
        | None => None
        end
      else None
  | _ => None
  end.
(** A function with a body; the attributes inside it belong to the function. *)
Definition function_ (ts : list tt) : option (list tt * list attr * list stmt * list tt) :=
  match span is_brace ts with
  | Some (sig, TGroup Brace b, r) =>
      if all (g NSig) sig then
        let (ia, b') := take_inner_attrs b in option_map (fun l => (sig, ia, l, r)) (stmts b')
      else None
  | _ => None
  end.
(** An item that ends with a semicolon. *)
Definition until_semicolon (f : parser) (ts : list tt) : option (list tt) :=
  match span is_semicolon ts with Some (a, _, r) => if all f a then Some r else None | None => None end.
Definition bounded : parser := op ":" ;;; g (NBounds true).
Definition type_alias : parser :=
  word "type" ;;; ident ;;; opt (g NGenerics) ;;; opt bounded ;;; g NWhere ;;; opt (op "=" ;;; g (NType true) ;;; g NWhere).
Definition constant : parser :=
  word "const" ;;; (ident <|> word "_") ;;; op ":" ;;; g (NType true) ;;; opt (op "=" ;;; g (NExpr true)).
Definition macro_call : parser :=
  fun ts => match (g (NPath true) ;;; op "!" ;;; opt ident) ts with
            | Some (TGroup Brace _ :: r) => Some r
            | Some (TGroup _ _ :: r) => op ";" r
            | _ => None
            end.

Definition trait_item_ (ts : list tt) : option (trait_item * list tt) :=
  let (a, r) := take_attrs ts in
  if is_fn r then
    match span (fun t => is_brace t || is_semicolon t) r with
    | Some (sig, TGroup Brace b, r') =>
        if all (g NSig) sig then
          let (ia, b') := take_inner_attrs b in option_map (fun l => (TFn (a ++ ia) sig (Some l), r')) (stmts b')
        else None
    | Some (sig, _, r') => if all (g NSig) sig then Some (TFn a sig None, r') else None
    | None => None
    end
  else
    match until_semicolon type_alias r, until_semicolon constant r, macro_call r with
    | Some r', _, _ => Some (TOther KTraitType (upto ts r'), r')
    | None, Some r', _ => Some (TOther KTraitConst (upto ts r'), r')
    | None, None, Some r' => Some (TOther KTraitMacro (upto ts r'), r')
    | None, None, None => None
    end.
Definition impl_item_ (ts : list tt) : option (impl_item * list tt) :=
  let (a, r0) := take_attrs ts in
  match vis_ r0 with
  | Some r1 =>
      let v := upto r0 r1 in
      let (d, r) := match word "default" r1 with Some r => (true, r) | None => (false, r1) end in
      if is_fn r then
        match function_ r with
        | Some (sig, ia, body, r') => Some (MFn (a ++ ia) v d sig body, r')
        | None => None
        end
      else
        match until_semicolon type_alias r, until_semicolon constant r, macro_call r with
        | Some r', _, _ => Some (MOther KImplType (upto ts r'), r')
        | None, Some r', _ => Some (MOther KImplConst (upto ts r'), r')
        | None, None, Some r' => Some (MOther KImplMacro (upto ts r'), r')
        | None, None, None => None
        end
  | None => None
  end.
Definition foreign_item_ (ts : list tt) : option (list tt * list tt) :=
  let (a, r0) := take_attrs ts in
  match vis_ r0 with
  | Some r =>
      match until_semicolon (g NSig) r, until_semicolon (word "static" ;;; opt (word "mut") ;;; ident ;;; op ":" ;;; g (NType true)) r with
      | Some r', _ | None, Some r' => Some (upto ts r', r')
      | None, None => None
      end
  | None => None
  end.

Definition where_of (ts : list tt) : list tt * list tt :=
  match g NWhere ts with Some r => (upto ts r, r) | None => ([], ts) end.
Definition generics_of (ts : list tt) : list tt * list tt :=
  match opt (g NGenerics) ts with Some r => (upto ts r, r) | None => ([], ts) end.

(** The parts of a list separated by [+]. *)
Fixpoint bounds_of (fuel : nat) (ts : list tt) : option (list (list tt) * bool * list tt) :=
  match fuel with
  | 0 => None
  | S fuel' =>
      match g NBound ts with
      | Some r =>
          match op "+" r with
          | Some r' => match bounds_of fuel' r' with
                       | Some (l, t, r'') => Some (upto ts r :: l, t, r'')
                       | None => Some ([upto ts r], true, r')
                       end
          | None => Some ([upto ts r], false, r)
          end
      | None => None
      end
  end.

Definition struct_ (a : list attr) (v : list tt) (r : list tt) : option (item * list tt) :=
  match r with
  | TIdent x :: r0 =>
      if plain_ident x then
        let (p, r1) := generics_of r0 in
        let (w, r2) := where_of r1 in
        match fields_ r2 with
        | Some (FNamed l t, r3) => Some (IStruct a v x {| g_params := p; g_where := w |} (FNamed l t), r3)
        | Some (f, r3) =>
            let (w', r4) := match w with [] => where_of r3 | _ => (w, r3) end in
            option_map (fun r5 => (IStruct a v x {| g_params := p; g_where := w' |} f, r5)) (op ";" r4)
        | None => None
        end
      else None
  | _ => None
  end.
Definition enum_ (a : list attr) (v : list tt) (r : list tt) : option (item * list tt) :=
  match r with
  | TIdent x :: r0 =>
      let (p, r1) := generics_of r0 in
      let (w, r2) := where_of r1 in
      match r2 with
      | TGroup Brace l :: r3 =>
          if plain_ident x then
            option_map (fun '(vs, t) => (IEnum a v x {| g_params := p; g_where := w |} vs t, r3)) (separated variant_ (List.length l) l)
          else None
      | _ => None
      end
  | _ => None
  end.
Definition union_ (a : list attr) (v : list tt) (r : list tt) : option (item * list tt) :=
  match r with
  | TIdent x :: r0 =>
      let (p, r1) := generics_of r0 in
      let (w, r2) := where_of r1 in
      match r2 with
      | TGroup Brace l :: r3 =>
          if plain_ident x then
            option_map (fun '(fs, t) => (IUnion a v x {| g_params := p; g_where := w |} fs t, r3)) (separated (field_ true) (List.length l) l)
          else None
      | _ => None
      end
  | _ => None
  end.
Definition trait_ (a : list attr) (v : list tt) (u au : bool) (r : list tt) : option (item * list tt) :=
  match r with
  | TIdent x :: r0 =>
      let (p, r1) := generics_of r0 in
      match (match op ":" r1 with
             | Some r1' => match bounds_of (List.length r1') r1' with Some b => Some b | None => Some ([], false, r1') end
             | None => Some ([], false, r1)
             end) with
      | Some (supers, t, r2) =>
          let (w, r3) := where_of r2 in
          match r3 with
          | TGroup Brace l :: r4 =>
              let (ia, l') := take_inner_attrs l in
              if plain_ident x then
                option_map (fun is => (ITrait (a ++ ia) v u au x {| g_params := p; g_where := w |} supers t is, r4))
                  (sequence trait_item_ (List.length l') l')
              else None
          | _ => None
          end
      | None => None
      end
  | _ => None
  end.
Definition impl_ (a : list attr) (d u : bool) (r : list tt) : option (item * list tt) :=
  let (p, r1) := generics_of r in
  let (bang, r2) := match op "!" r1 with Some r' => (true, r') | None => (false, r1) end in
  let finish tr ty r' :=
    let (w, r3) := where_of r' in
    match r3 with
    | TGroup Brace l :: r4 =>
        let (ia, l') := take_inner_attrs l in
        option_map (fun is => (IImpl (a ++ ia) d u {| g_params := p; g_where := w |} tr ty is, r4))
          (sequence impl_item_ (List.length l') l')
    | _ => None
    end in
  match (g NPathType ;;; word "for") r2 with
  | Some r3 =>
      let path := upto r2 (kw "for" :: r3) in
      match g (NType false) r3 with
      | Some r4 => finish (Some (bang, path)) (upto r3 r4) r4
      | None => None
      end
  | None => match g (NType false) r2 with Some r3 => finish None (upto r2 r3) r3 | None => None end
  end.
Definition mod_ (a : list attr) (v : list tt) (u : bool) (r : list tt) : option (item * list tt) :=
  match r with
  | TIdent x :: TGroup Brace l :: r' =>
      let (ia, l') := take_inner_attrs l in
      if plain_ident x then option_map (fun is => (IMod (a ++ ia) v u x (Some is), r')) (items l') else None
  | TIdent x :: r' => if plain_ident x then option_map (fun r'' => (IMod a v u x None, r'')) (op ";" r') else None
  | _ => None
  end.

(** syn::Item *)
Definition item_ (ts : list tt) : option (item * list tt) :=
  let (a, r0) := take_attrs ts in
  match vis_ r0 with
  | None => None
  | Some r1 =>
      let v := upto r0 r1 in
      let other := option_map (fun r => (IOther (upto ts r), r)) in
      if is_fn r1 then
        match function_ r1 with Some (sig, ia, body, r) => Some (IFn (a ++ ia) v sig body, r) | None => None end
      else
        let (u, r2) := match word "unsafe" r1 with Some r => (true, r) | None => (false, r1) end in
        let (au, r3) := match (word "auto" ;;; unless (unless (word "trait"))) r2, word "auto" r2 with
                        | Some _, Some r => (true, r)
                        | _, _ => (false, r2)
                        end in
        match r3 with
        | TIdent k :: r =>
            if str_eqb k (txt "struct") then struct_ a v r
            else if str_eqb k (txt "enum") then enum_ a v r
            else if str_eqb k (txt "trait") then trait_ a v u au r
            else if str_eqb k (txt "impl") then impl_ a false u r
            else if str_eqb k (txt "mod") then mod_ a v u r
            else if str_eqb k (txt "extern") then
              let (abi, r') := match r with TLit (LStr x p) :: r' => (Some (x, p), r') | _ => (None, r) end in
              match r' with
              | TGroup Brace l :: r'' =>
                  let (ia, l') := take_inner_attrs l in
                  option_map (fun is => (IForeign (a ++ ia) u abi is, r'')) (sequence foreign_item_ (List.length l') l')
              | _ => other (until_semicolon (word "extern" ;;; word "crate" ;;; rest_) r3)
              end
            else if str_eqb k (txt "union") then
              match union_ a v r with Some x => Some x | None => None end
            else if str_eqb k (txt "static") then other (until_semicolon (word "static" ;;; opt (word "mut") ;;; ident ;;; op ":" ;;; g (NType true) ;;; opt (op "=" ;;; g (NExpr true))) r3)
            else if str_eqb k (txt "const") then other (until_semicolon constant r3)
            else if str_eqb k (txt "use") then other (until_semicolon (word "use" ;;; g NUse) r3)
            else if str_eqb k (txt "type") then other (until_semicolon type_alias r3)
            else if str_eqb k (txt "macro_rules") then other (macro_call r3)
            else None
        | _ => None
        end
  end.

(** [mod] also holds macro calls. *)
Definition module_item (ts : list tt) : option (item * list tt) :=
  match item_ ts with
  | Some x => Some x
  | None => option_map (fun r => (IOther (upto ts r), r)) ((attrs_ ;;; macro_call) ts)
  end.

(** syn::Stmt *)
Definition stmt_ (ts : list tt) : option (stmt * list tt) :=
  let other r := Some (SOther (upto ts r), r) in
  match op ";" ts with
  | Some r => other r
  | None =>
      match item_ ts with
      | Some (x, r) => Some (SItem x, r)
      | None =>
          match g NLet ts with
          | Some r => other r
          | None =>
              match (attrs_ ;;; macro_call) ts with
              | Some r => other r
              | None =>
                  (* an expression like [if] or [match] ends the statement, unless more follows *)
                  match (attrs_ ;;; g NBlockLike ;;; unless (op "." <|> op "?")) ts with
                  | Some r => match op ";" r with Some r' => other r' | None => other r end
                  | None =>
                      match g (NExpr true) ts with
                      | Some [] => other []
                      | Some r => match op ";" r with Some r' => other r' | None => None end
                      | None => None
                      end
                  end
              end
          end
      end
  end.
End Items.

Fixpoint stmts (fuel : nat) (ts : list tt) : option (list stmt) :=
  match fuel with
  | 0 => None
  | S fuel' =>
      let g := go (fun b => match stmts fuel' b with Some _ => true | None => false end) fuel' in
      let items := (fix items (k : nat) (ts : list tt) : option (list item) :=
                      match k with
                      | 0 => None
                      | S k' => sequence (module_item g (stmts fuel') (items k')) (List.length ts) ts
                      end) in
      sequence (stmt_ g (stmts fuel') (items fuel')) (List.length ts) ts
  end.
