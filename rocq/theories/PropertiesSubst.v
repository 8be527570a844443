(** C21-C24: substitution in token streams.  [substituted] and [substitution_stages]
    (SpecSubst) are plain recursive maps; [parse] is the parser of the node substituted. *)
From Coq Require Import String.
From Verif Require Import Base Token Types Values FormatString StreamWalker SubstituteIdents SpecSubst WalkerProofs SubstFacts Concrete ConcreteSpecs.
Open Scope list_scope.

(** C21 *)
Theorem C21_substitution : forall O lookup N (parse : list tt -> option N) ts n,
  substitute_idents O lookup parse ts = Ok n -> parse (substituted O lookup ts) = Some n.
Proof. exact substitutes. Qed.
Print Assumptions C21_substitution.

(** A parser that accepts everything shows the stream itself. *)
Theorem C21_all_streams : forall O lookup ts,
  substitute_idents O lookup (@Some (list tt)) ts = Ok (substituted O lookup ts).
Proof. exact run_all. Qed.
Print Assumptions C21_all_streams.

(** Every leaf at every depth is replaced for itself. *)
Theorem C21_leaves : forall O lookup ts,
  leaves (substituted O lookup ts) =
  flat_map (fun t => match t with
                     | TIdent x => match lookup x with Some v => leaves (to_tokens v) | None => [t] end
                     | TLit l => match parse_lit_str O [t] with Some (v, _) => [TLit (LStr (format_string O lookup v) [])] | None => [t] end
                     | _ => leaves [t]
                     end) (leaves ts).
Proof. exact substituted_leaves. Qed.
Print Assumptions C21_leaves.

(** Streams without an alias and without string literals that change stay as they are. *)
Theorem C21_unchanged : forall O lookup ts,
  (forall x, In (TIdent x) (leaves ts) -> lookup x = None) ->
  (forall l v p, In (TLit l) (leaves ts) -> parse_lit_str O [TLit l] = Some (v, p) -> l = LStr (format_string O lookup v) []) ->
  substituted O lookup ts = ts.
Proof. exact substituted_unchanged. Qed.
Print Assumptions C21_unchanged.

(** Groups keep their delimiter and their place; the rest of a stream is not touched. *)
Theorem C21_structure : forall O lookup a b d ts,
  substituted O lookup (a ++ TGroup d ts :: b) = substituted O lookup a ++ TGroup d (substituted O lookup ts) :: substituted O lookup b.
Proof. exact substituted_group. Qed.
Print Assumptions C21_structure.

Example C21_example :
  let a := aliases [("x", VType [i "Vec"; p1 "<"; i "u8"; p1 ">"]); ("e", VTokens []); ("n", VIdent (txt "m"))]%string in
  substitute_idents ascii a (@Some (list tt)) [i "f"; paren [i "x"; p1 ","; bracket [i "n"; i "e"; ls "%n%!"]]; i "e"; i "n"] =
  Ok [i "f"; paren [i "Vec"; p1 "<"; i "u8"; p1 ">"; p1 ","; bracket [i "m"; ls "m!"]]; i "m"].
Proof. vm_compute. reflexivity. Qed.

(** C22 *)
Theorem C22_swap : forall O a b ts, a <> b ->
  (forall l, In (TLit l) (leaves ts) -> parse_lit_str O [TLit l] = None) ->
  (let! once := substitute_idents O (swapping a b) (@Some (list tt)) ts in
   substitute_idents O (swapping a b) (@Some (list tt)) once) = Ok ts.
Proof. exact swap_twice_run. Qed.
Print Assumptions C22_swap.

(** Inserted tokens are seen by a second substitution only. *)
Theorem C22_composition : forall O f g ts,
  (forall l, parse_lit_str O [TLit l] = None) ->
  (let! once := substitute_idents O f (@Some (list tt)) ts in substitute_idents O g (@Some (list tt)) once) =
  substitute_idents O (fun x => match f x with
                                | Some v => Some (VTokens (substituted O g (to_tokens v)))
                                | None => g x end) (@Some (list tt)) ts.
Proof. exact compose_run. Qed.
Print Assumptions C22_composition.

(** Whatever the value of an alias mentions, the alias itself included, it is inserted once
    per occurrence. *)
Theorem C22_self_reference : forall O lookup x v ts,
  lookup x = Some v ->
  (forall l, In (TLit l) (leaves ts) -> parse_lit_str O [TLit l] = None) ->
  (forall y, In (TIdent y) (leaves ts) -> y = x) -> leaves ts = ts ->
  substitute_idents O lookup (@Some (list tt)) ts =
  Ok (flat_map (fun t => match t with TIdent _ => to_tokens v | _ => [t] end) ts).
Proof. exact self_reference_run. Qed.
Print Assumptions C22_self_reference.

Example C22_example :
  let run t ts := substitute_idents ascii (aliases t) (@Some (list tt)) ts in
  run [("a", VIdent (txt "b")); ("b", VIdent (txt "a"))]%string [i "a"; p1 "+"; paren [i "b"; i "a"]] = Ok [i "b"; p1 "+"; paren [i "a"; i "b"]] /\
  run [("a", VTokens [i "a"; paren [i "a"]])]%string [i "a"; i "c"; i "a"] = Ok [i "a"; paren [i "a"]; i "c"; i "a"; paren [i "a"]] /\
  run [("a", VIdent (txt "b")); ("b", VIdent (txt "c"))]%string [i "a"; i "b"] = Ok [i "b"; i "c"].
Proof. repeat split; vm_compute; reflexivity. Qed.

(** C23: any visitor that does not replace on entering a group.  The number of steps is
    bounded by the input alone. *)
Theorem C23_terminates : forall S (V : visitor S),
  (forall s c g a s', enter_group V s c g = Ok (a, s') -> forall ts, a <> Replace ts) ->
  forall s ts fuel, 1 + 2 * stream_size ts <= fuel ->
  walk V fuel s ts = walk V (1 + 2 * stream_size ts) s ts /\
  ((forall s c x p, visit_ident V s c x <> Panic p) -> (forall s c x j p, visit_punct V s c x j <> Panic p) ->
   (forall s c x p, visit_literal V s c x <> Panic p) -> (forall s c d x p, visit_group V s c d x <> Panic p) ->
   (forall s c x p, enter_group V s c x <> Panic p) -> (forall s c x p, exit_group V s c x <> Panic p) ->
   (forall s c p, after_replace V s c <> Panic p) ->
   forall p, walk V fuel s ts <> Panic p).
Proof. exact walk_terminates. Qed.
Print Assumptions C23_terminates.

(** The macro's own visitor never runs out of steps, whatever the parser does. *)
Theorem C23_substitution_terminates : forall O lookup N (parse : list tt -> option N) ts,
  substitute_idents O lookup parse ts <> Panic PFuel /\ substitute_idents O lookup parse ts <> Panic PFoldGroup /\
  substitute_idents O lookup parse ts <> Panic PIndex.
Proof. exact substitution_terminates. Qed.
Print Assumptions C23_substitution_terminates.

(** "Every visitor" is false: replacing the contents of a group on entering it can go on
    for ever. *)
Theorem C23_enter_replacement_refuted : exists (V : visitor unit) ts, forall fuel, walk V fuel Datatypes.tt ts = Panic PFuel.
Proof. exact (ex_intro _ nesting_visitor (ex_intro _ [TGroup Paren []] nesting_loops)). Qed.
Print Assumptions C23_enter_replacement_refuted.

Example C23_example :
  let V := {| visit_ident := fun s _ x => if str_eqb x (txt "dup") then Ok (Replace [i "dup"; i "dup"], S s) else if str_eqb x (txt "del") then Ok (Skip, s) else Ok (Continue, s);
              visit_punct := fun s _ _ _ => Ok (Replace [], s); visit_literal := fun s _ _ => Ok (Continue, s);
              visit_group := fun s _ d g => match d with Bracket => Ok (Replace g, s) | _ => Ok (Continue, s) end;
              enter_group := fun s _ _ => Ok (Continue, s);
              exit_group := fun s c g => if Nat.ltb (List.length c) 2 then Ok (Continue, s) else Ok (Replace (g ++ [i "end"]), s);
              after_replace := fun s _ => Ok s |} in
  walk V 40 0 [i "dup"; p1 ","; paren [i "del"; i "x"; bracket [i "dup"; i "del"]]; i "del"] =
  Ok (1, [i "dup"; i "dup"; paren [i "x"; i "dup"; i "del"; i "end"]]).
Proof. vm_compute. reflexivity. Qed.

(** C24: the exact outcome. *)
Theorem C24_success : forall O lookup N (parse : list tt -> option N) ts n,
  substitute_idents O lookup parse ts = Ok n <->
  parse (substituted O lookup ts) = Some n /\ forall s, In s (substitution_stages O lookup ts) -> parse (snd s) <> None.
Proof. exact success_iff. Qed.
Print Assumptions C24_success.

Theorem C24_first_failure : forall O lookup N (parse : list tt -> option N) ts before name s after,
  substitution_stages O lookup ts = before ++ (name, s) :: after ->
  (forall s', In s' before -> parse (snd s') <> None) -> parse s = None ->
  substitute_idents O lookup parse ts =
  match last_alias None (before ++ [(name, s)]) with Some x => Err (SubstitutionError x) | None => Panic PErrorData end.
Proof. exact first_failure. Qed.
Print Assumptions C24_first_failure.

(** If the code given is valid and the parser does not look into strings, the macro either
    gives the substituted code or blames the alias whose replacement broke it. *)
Theorem C24_outcomes : forall O lookup N (parse : list tt -> option N),
  (forall l r, parse_lit_str O [TLit l] = Some r -> exists v p, l = LStr v p) -> ignores_strings parse ->
  forall ts, parse ts <> None ->
  (exists n, substitute_idents O lookup parse ts = Ok n /\ parse (substituted O lookup ts) = Some n /\
     forall s, In s (substitution_stages O lookup ts) -> parse (snd s) <> None) \/
  (exists before x s after, substitution_stages O lookup ts = before ++ (Some x, s) :: after /\
     (forall s', In s' before -> parse (snd s') <> None) /\ parse s = None /\
     substitute_idents O lookup parse ts = Err (SubstitutionError x)).
Proof. exact outcomes. Qed.
Print Assumptions C24_outcomes.

(** The stages: one per occurrence, in order, the last one is the result. *)
Theorem C24_stages : forall O lookup ts,
  map fst (substitution_stages O lookup ts) =
    map occurrence_name (filter (occurs (tokens_of lookup) (literal_of O lookup)) (leaves ts)) /\
  snd (last (substitution_stages O lookup ts) (None, ts)) = substituted O lookup ts.
Proof. exact stages_shape. Qed.
Print Assumptions C24_stages.

(** Without those assumptions a panic is possible: code that does not parse to begin with. *)
Theorem C24_no_panic_without_valid_input_refuted : exists ts,
  substitute_idents ascii (fun _ => None) (parse_expr ascii) ts = Panic PUnreachable /\
  substitute_idents ascii (fun _ => None) (parse_expr ascii) (ts ++ [ls "s"]) = Panic PErrorData.
Proof. exists [p1 "+"]. split; vm_compute; reflexivity. Qed.
Print Assumptions C24_no_panic_without_valid_input_refuted.

Example C24_example :
  let a := aliases [("x", VIdent (txt "y")); ("bad", VTokens [p1 ";"]); ("s", VIdent (txt "q"))]%string in
  let run ts := substitute_idents ascii a (parse_expr ascii) ts in
  run [i "x"; p1 "+"; i "bad"; p1 "+"; i "x"] = Err (SubstitutionError (txt "bad")) /\
  run [i "x"; p1 "+"; ls "%s%"] = Ok [i "y"; p1 "+"; ls "q"] /\
  map fst (substitution_stages ascii a [i "x"; p1 "+"; i "bad"; ls "s"]) = [Some (txt "x"); Some (txt "bad"); None].
Proof. repeat split; vm_compute; reflexivity. Qed.
