(** A concrete ASCII instance of the oracles, used only in examples and witnesses.
    The parsers accept small but representative subsets of Rust's grammar. *)
From Coq Require Import String.
From Verif Require Import Base Token Types Values FormatString.

Definition in_range (lo hi c : N) : bool := (lo <=? c)%N && (c <=? hi)%N.
Definition is_digit (c : chr) : bool := in_range 48 57 c.
Definition is_lower (c : chr) : bool := in_range 97 122 c.
Definition is_upper (c : chr) : bool := in_range 65 90 c.
Definition is_alpha (c : chr) : bool := is_lower c || is_upper c.
Definition is_alnum (c : chr) : bool := is_alpha c || is_digit c.
Definition is_space (c : chr) : bool := N.eqb c 32 || in_range 9 13 c.
Definition up (c : chr) : chr := if is_lower c then (c - 32)%N else c.
Definition low (c : chr) : chr := if is_upper c then (c + 32)%N else c.

Definition keywords : list str :=
  map txt ["fn"; "type"; "let"; "mod"; "struct"; "enum"; "impl"; "trait"; "for"; "in"; "if";
           "else"; "match"; "const"; "static"; "use"; "pub"; "where"; "while"; "loop"; "return"]%string.
Definition is_kw (x : str) : bool := existsb (str_eqb x) keywords.

(** Identifier text: not empty, a letter or underscore first, not a lone underscore. *)
Definition ident_text (x : str) : bool :=
  match x with
  | [] => false
  | [c] => is_alpha c
  | c :: r => (is_alpha c || N.eqb c 95) && forallb (fun c => is_alnum c || N.eqb c 95) r
  end.

Definition punct (t : tt) : option chr := match t with TPunct c _ => Some c | _ => None end.
Definition is_p (c : N) (t : tt) : bool :=
  match punct t with Some d => N.eqb c d | None => false end.

(** [ident (:: ident)*] *)
Fixpoint simple_path (fuel : nat) (ts : list tt) : option (list str * list tt) :=
  match fuel with
  | 0 => None
  | S fuel' =>
      match ts with
      | TIdent x :: c1 :: c2 :: rest =>
          if is_kw x then None
          else if is_p 58 c1 && is_p 58 c2 then
            match simple_path fuel' rest with
            | Some (l, r) => Some (x :: l, r)
            | None => None
            end
          else Some ([x], c1 :: c2 :: rest)
      | TIdent x :: rest => if is_kw x then None else Some ([x], rest)
      | _ => None
      end
  end.

(** A path, optionally with one generic argument [path<path>] or [&path]. *)
Fixpoint simple_type (fuel : nat) (ts : list tt) : option (list tt) :=
  match fuel with
  | 0 => None
  | S fuel' =>
      match ts with
      | a :: rest0 =>
          if is_p 38 a then simple_type fuel' rest0
          else
            match simple_path (S (List.length ts)) ts with
            | Some (_, a :: rest) =>
                if is_p 60 a then
                  match simple_type fuel' rest with
                  | Some (b :: r) => if is_p 62 b then Some r else None
                  | _ => None
                  end
                else Some (a :: rest)
            | Some (_, []) => Some []
            | None => None
            end
      | [] => None
      end
  end.

(** Terms joined by [+]: literals, paths, parenthesised or indexed groups. *)
Fixpoint simple_expr (fuel : nat) (ts : list tt) : bool :=
  match fuel with
  | 0 => false
  | S fuel' =>
      let rest := match ts with
                  | TLit _ :: r => Some r
                  | TGroup Paren _ :: r => Some r
                  | _ => match simple_path (S (List.length ts)) ts with
                         | Some (_, r) => Some r
                         | None => None
                         end
                  end in
      match rest with
      | Some [] => true
      | Some (p :: r) => is_p 43 p && simple_expr fuel' r
      | None => false
      end
  end.

(** Printing in the style of proc_macro2: a space between tokens except after a joint
    punctuation character. *)
Fixpoint print_tt (t : tt) : str :=
  match t with
  | TIdent x => x
  | TPunct c _ => [c]
  | TLit (LStr v _) => [34%N] ++ v ++ [34%N]
  | TLit (LInt _ r) => r
  | TLit (LOther r) => r
  | TGroup d ts =>
      let inner := (fix go (l : list tt) : str :=
                      match l with
                      | [] => []
                      | [x] => print_tt x
                      | x :: r => print_tt x ++ (match x with TPunct _ true => [] | _ => [32%N] end) ++ go r
                      end) ts in
      match d with
      | Paren => [40%N] ++ inner ++ [41%N]
      | Brace => [123%N] ++ inner ++ [125%N]
      | Bracket => [91%N] ++ inner ++ [93%N]
      | NoDelim => inner
      end
  end.
Definition print (ts : list tt) : str := print_tt (TGroup NoDelim ts).

Fixpoint snake (prev_low : bool) (x : str) : str :=
  match x with
  | [] => []
  | c :: r =>
      if is_upper c then (if prev_low then [95%N] else []) ++ [low c] ++ snake false r
      else c :: snake (is_lower c || is_digit c) r
  end.
Fixpoint pascal (start : bool) (x : str) : str :=
  match x with
  | [] => []
  | c :: r => if N.eqb c 95 then pascal true r else (if start then up c else c) :: pascal false r
  end.
Definition camel (x : str) : str :=
  match pascal true x with [] => [] | c :: r => low c :: r end.

Definition toy_hash (seed : N) (x : str) : N :=
  (fold_left (fun h c => (h * 31 + c) mod 18446744073709551616)%N x (seed mod 18446744073709551616))%N.

Definition ascii : oracles := {|
  parse_ident := fun ts => match ts with [TIdent x] => if is_kw x then None else Some x | _ => None end;
  parse_path := fun ts => match simple_path (S (List.length ts)) ts with Some (_, []) => Some ts | _ => None end;
  parse_type := fun ts => match simple_type (S (List.length ts)) ts with Some [] => Some ts | _ => None end;
  parse_expr := fun ts => if simple_expr (S (List.length ts)) ts then Some ts else None;
  parse_lit_str := fun ts => match ts with [TLit (LStr v p)] => Some (v, p) | _ => None end;
  parse_lit_int := fun ts =>
    match ts with
    | [TLit (LInt d r)] => Some (d, r)
    | [TPunct c _; TLit (LInt d r)] => if N.eqb c 45 then Some (45%N :: d, 45%N :: r) else None
    | _ => None
    end;
  parse_str_ident := fun x => if ident_text x && negb (is_kw x) then Some x else None;
  ident_ok := fun x => ident_text x || str_eqb x [95%N];
  lit_int_new := fun x => match x with
                          | [] => None
                          | _ => if forallb is_digit x then Some (x, x) else None
                          end;
  to_string := print;
  upper := map up;
  lower := map low;
  to_snake_case := snake false;
  to_camel_case := camel;
  to_pascal_case := pascal true;
  is_alphanumeric := is_alnum;
  is_numeric := is_digit;
  is_whitespace := is_space;
  hash64 := toy_hash;
  path_segments := fun ts => match simple_path (S (List.length ts)) ts with Some (l, _) => l | None => [] end;
|}.

(** Shorthands for examples. *)
Definition i (x : string) : tt := TIdent (txt x).
Definition p1 (x : string) : tt := TPunct (hd 0%N (txt x)) false.
Definition pj (x : string) : tt := TPunct (hd 0%N (txt x)) true.
Definition colons : list tt := [pj ":"; p1 ":"].
Definition li (x : string) : tt := TLit (LInt (txt x) (txt x)).
Definition ls (x : string) : tt := TLit (LStr (txt x) []).
Definition paren (ts : list tt) : tt := TGroup Paren ts.
Definition brace (ts : list tt) : tt := TGroup Brace ts.
Definition bracket (ts : list tt) : tt := TGroup Bracket ts.
