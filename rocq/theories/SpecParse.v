(** Specification of the parsing phase. *)
From Coq Require Import String.
From Verif Require Import Base Token Types Values Ast Item Interpreter Parse SpecElab.
Open Scope list_scope.

(** ** Values *)

(** The syntactic classes of values, in the order that decides ties. *)
Inductive class := ClInt | ClStr | ClUnderscore | ClIdent | ClPath | ClType | ClExpr.
Definition rank (c : class) : nat :=
  match c with
  | ClInt => 0 | ClStr => 1 | ClUnderscore => 2 | ClIdent => 3 | ClPath => 4 | ClType => 5 | ClExpr => 6
  end.

(** The parser of a class reads [v] from the first [k] token trees; [u]: but leaves tokens
    inside a group unread. *)
Inductive takes (P : parsers) : class -> list tt -> value -> nat -> bool -> Prop :=
| takes_int : forall ts d r k, pre_lit_int P ts = Some (d, r, k) -> takes P ClInt ts (VLitInt d r) k false
| takes_str : forall ts v p k, pre_lit_str P ts = Some (v, p, k) -> takes P ClStr ts (VLitStr v p) k false
| takes_underscore : forall r, takes P ClUnderscore (TIdent (txt "_") :: r) (VIdent (txt "_")) 1 false
| takes_underscore_punct : forall j r, takes P ClUnderscore (TPunct 95%N j :: r) (VIdent (txt "_")) 1 false
| takes_ident : forall x r, ident_allowed P x = true -> takes P ClIdent (TIdent x :: r) (VIdent x) 1 false
| takes_path : forall ts p k u, pre_path P ts = Some (p, k, u) -> takes P ClPath ts (VPath p) k u
| takes_type : forall ts t k u, pre_type P ts = Some (t, k, u) -> takes P ClType ts (VType t) k u
| takes_expr : forall ts e k u, pre_expr P ts = Some (e, k, u) -> takes P ClExpr ts (VExpr e) k u.

(** Nothing or a terminator follows. *)
Definition ends_at (term : tt -> bool) (ts : list tt) (k : nat) : Prop :=
  skipn k ts = [] \/ exists t r, skipn k ts = t :: r /\ term t = true.

(** External parsers read no more than there is. *)
Definition within (P : parsers) : Prop :=
  (forall ts d r k, pre_lit_int P ts = Some (d, r, k) -> k <= List.length ts) /\
  (forall ts v p k, pre_lit_str P ts = Some (v, p, k) -> k <= List.length ts) /\
  (forall ts x k u, pre_path P ts = Some (x, k, u) -> k <= List.length ts) /\
  (forall ts x k u, pre_type P ts = Some (x, k, u) -> k <= List.length ts) /\
  (forall ts x k u, pre_expr P ts = Some (x, k, u) -> k <= List.length ts) /\
  (forall ts b k u, pre_block P ts = Some (b, k, u) -> k <= List.length ts).
(** A node prints the tokens it was read from, if none were left unread. *)
Definition printing (P : parsers) : Prop :=
  (forall ts v p k, pre_lit_str P ts = Some (v, p, k) -> firstn k ts = [TLit (LStr v p)]) /\
  (forall ts x k, pre_path P ts = Some (x, k, false) -> firstn k ts = x) /\
  (forall ts x k, pre_type P ts = Some (x, k, false) -> firstn k ts = x) /\
  (forall ts x k, pre_expr P ts = Some (x, k, false) -> firstn k ts = x).

(** ** Ids and names *)

(** The ids in [l] are distinct and were drawn while the counter went from [n] to [n']. *)
Definition drawn (n n' : N) (l : list N) : Prop :=
  (n <= n')%N /\ NoDup l /\ Forall (fun x => (n <= x)%N /\ (x < n')%N) l.

(** Every call names a function. *)
Inductive calls_known (has_func : str -> bool) : expr -> Prop :=
| known_value : forall id v, calls_known has_func (EValue id v)
| known_call : forall id x args raw, has_func x = true -> Forall (calls_known has_func) args ->
    calls_known has_func (ECall id x args raw).

Fixpoint tuple_exprs (t : tuple_value expr) : list expr :=
  match t with
  | TVValue e => [e]
  | TVTuple l => flat_map tuple_exprs l
  end.
Definition source_exprs (v : loop_source_value) : list expr :=
  match v with
  | LSValue e => [e]
  | LSTuple t => flat_map tuple_exprs t
  end.
Definition loop_exprs (l : loop_item) : list expr := flat_map source_exprs (loop_values l).

(** All the expressions of an input. *)
Definition ast_exprs {B} (a : raw_ast B) : list expr :=
  match ast_loops a with Some ls => flat_map loop_exprs ls | None => [] end ++
  match ast_spec a with Some s => map snd (spec_items s) | None => [] end.

(** ** Lists of definitions *)

(** An expression at the head of the tokens: the counter and the tokens that follow. *)
Definition expr_at (P : parsers) (has_func : str -> bool) (n : N) (ts : list tt)
  : N * (expr * nat * bool) :=
  parse_expr P has_func n (map (ann P has_func) ts).

(** [x = value] and what follows it. *)
Inductive defines (P : parsers) (has_func : str -> bool) (n : N) : list tt -> spec_item -> bool -> N -> list tt -> Prop :=
| defines_ : forall x j vs e k u n', ident_allowed P x = true -> expr_at P has_func n vs = (n', (e, k, u)) ->
    defines P has_func n (TIdent x :: TPunct 61%N j :: vs) (x, e) u n' (skipn k vs).

(** A separator: [true] is a comma, [false] a semicolon. *)
Inductive separates : bool -> tt -> Prop :=
| comma_separates : forall j, separates true (TPunct 44%N j)
| semicolon_separates : forall j, separates false (TPunct 59%N j).

Definition at_ident (P : parsers) (ts : list tt) : Prop := exists x r, ts = TIdent x :: r /\ ident_allowed P x = true.

(** Some definitions, each followed by a separator of kind [c] and then by an identifier. *)
Inductive definitions (P : parsers) (has_func : str -> bool) (c : bool)
  : N -> list tt -> list spec_item -> bool -> N -> list tt -> Prop :=
| no_definitions : forall n ts, definitions P has_func c n ts [] false n ts
| more_definitions : forall n ts d u n1 s ts1 ds u' n2 ts2,
    defines P has_func n ts d u n1 (s :: ts1) -> separates c s -> at_ident P ts1 ->
    definitions P has_func c n1 ts1 ds u' n2 ts2 ->
    definitions P has_func c n ts (d :: ds) (u || u') n2 ts2.

(** A whole list: the last definition is followed by the end or by a separator after which
    no identifier comes. *)
Definition definition_list (P : parsers) (has_func : str -> bool) (c : bool) (n : N) (ts : list tt)
  (items : list spec_item) (trailing : bool) (u : bool) (rest : list tt) : Prop :=
  exists n1 ts1 ds d u1 u2 n2 after,
    definitions P has_func c n ts ds u1 n1 ts1 /\ defines P has_func n1 ts1 d u2 n2 after /\
    items = ds ++ [d] /\ u = u1 || u2 /\
    if trailing then exists s, after = s :: rest /\ separates c s /\ ~ at_ident P rest
    else after = [] /\ rest = [].

(** A value that is read alone where [follow] allows what comes after it. *)
Definition stands_alone (P : parsers) (has_func : str -> bool) (follow : list tt -> Prop) (vs : list tt) : Prop :=
  forall n r, follow r -> exists n' e, expr_at P has_func n (vs ++ r) = (n', (e, List.length vs, false)).
Definition before (c : bool) (r : list tt) : Prop := r = [] \/ exists s r', r = s :: r' /\ separates c s.

(** The text [x1 = v1 s x2 = v2 s ..]. *)
Definition sep (c : bool) : tt := TPunct (if c then 44%N else 59%N) false.
Definition definition_text (d : str * list tt) : list tt := TIdent (fst d) :: TPunct 61%N false :: snd d.
Fixpoint list_text (c : bool) (ds : list (str * list tt)) : list tt :=
  match ds with
  | [] => []
  | [d] => definition_text d
  | d :: r => definition_text d ++ sep c :: list_text c r
  end.

(** An item is what the text of its definition says: its value is read from there. *)
Definition value_of (P : parsers) (has_func : str -> bool) (c : bool) (d : str * list tt) (it : spec_item) : Prop :=
  fst it = fst d /\ exists n n' r, before c r /\ expr_at P has_func n (snd d ++ r) = (n', (snd it, List.length (snd d), false)).
