(** Token streams (proc_macro2::TokenStream).  Spans are in SpanTokens.v. *)
From Verif Require Import Base.

Inductive delim := Paren | Brace | Bracket | NoDelim.

(** A literal token.  [LStr value spelling]: a string literal with its decoded
    value; [spelling] distinguishes raw strings and suffixes ([[]] is the spelling
    chosen by [LitStr::new]).  [LInt digits repr]: an integer literal with the text
    of [base10_digits()] and its source text.  [LOther]: every other literal. *)
Inductive lit :=
| LStr (value spelling : str)
| LInt (digits repr : str)
| LOther (repr : str).

(** proc_macro2::TokenTree.  [joint] is the spacing of a punctuation character. *)
Inductive tt :=
| TIdent (x : str)
| TPunct (c : chr) (joint : bool)
| TLit (l : lit)
| TGroup (d : delim) (ts : list tt).

Section tt_ind'.
  Variable P : tt -> Prop.
  Hypothesis Hi : forall x, P (TIdent x).
  Hypothesis Hp : forall c j, P (TPunct c j).
  Hypothesis Hl : forall l, P (TLit l).
  Hypothesis Hg : forall d ts, Forall P ts -> P (TGroup d ts).
  Fixpoint tt_ind' (t : tt) : P t :=
    match t with
    | TIdent x => Hi x
    | TPunct c j => Hp c j
    | TLit l => Hl l
    | TGroup d ts =>
        Hg d ts ((fix go (l : list tt) : Forall P l :=
                    match l with
                    | [] => Forall_nil P
                    | x :: r => Forall_cons x (tt_ind' x) (go r)
                    end) ts)
    end.
End tt_ind'.

Definition delim_eqb (a b : delim) : bool :=
  match a, b with
  | Paren, Paren | Brace, Brace | Bracket, Bracket | NoDelim, NoDelim => true
  | _, _ => false
  end.

Definition lit_eqb (a b : lit) : bool :=
  match a, b with
  | LStr v p, LStr v' p' => str_eqb v v' && str_eqb p p'
  | LInt d r, LInt d' r' => str_eqb d d' && str_eqb r r'
  | LOther r, LOther r' => str_eqb r r'
  | _, _ => false
  end.

Fixpoint tt_eqb (a b : tt) : bool :=
  match a, b with
  | TIdent x, TIdent y => str_eqb x y
  | TPunct c j, TPunct c' j' => N.eqb c c' && Bool.eqb j j'
  | TLit l, TLit l' => lit_eqb l l'
  | TGroup d ts, TGroup d' ts' =>
      delim_eqb d d' &&
      (fix go (l l' : list tt) : bool :=
         match l, l' with
         | [], [] => true
         | x :: r, y :: r' => tt_eqb x y && go r r'
         | _, _ => false
         end) ts ts'
  | _, _ => false
  end.
