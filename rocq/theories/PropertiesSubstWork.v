(** C76: what is parsed when a block is substituted.  [part_parses] and [part_count] are in
    SpecSubstWork, [block_parts] in SpecOutcome. *)
From Coq Require Import String.
From Verif Require Import Base Token Types Values Item AliasSubstitution SubstituteLog SpecSubst SpecItem SpecOutcome SpecSubstWork SubstituteLogProofs OutcomeProofs
  Concrete ConcreteSpecs ConcreteRuns ConcreteParse.
Open Scope list_scope.

(** The visitor with a log does what the visitor does. *)
Theorem C76_same : forall O lookup reparse l, faithful O reparse ->
  (let! r := lvisit_block O lookup reparse l in Ok (fst r)) = visit_block O lookup reparse l.
Proof. exact log_same. Qed.
Print Assumptions C76_same.

(** Part by part, the streams parsed are: a statement in braces; the part after each
    replacement; the part at the end. *)
Theorem C76_parses : forall O lookup reparse l l' log, faithful O reparse ->
  lvisit_block O lookup reparse l = Ok (l', log) -> log = flat_map (part_parses O lookup) (block_parts l).
Proof. exact log_parses. Qed.
Print Assumptions C76_parses.

(** So there is one parse for each part, one more for a statement, and one for each alias name
    and each string literal, whether or not the string mentions an alias. *)
Theorem C76_count : forall O lookup reparse l l' log, faithful O reparse ->
  lvisit_block O lookup reparse l = Ok (l', log) -> List.length log = total (map (part_count O lookup) (block_parts l)).
Proof. exact log_count. Qed.
Print Assumptions C76_count.

(** If no alias stands for more than [w] tokens, the tokens parsed are at most [w] times the
    square of the tokens in the block, about. *)
Theorem C76_at_most : forall O lookup reparse l l' log w, faithful O reparse -> 1 <= w ->
  (forall x v, lookup x = Some v -> stream_size (to_tokens v) <= w) ->
  lvisit_block O lookup reparse l = Ok (l', log) ->
  let n := total (map (fun p => stream_size (part_tokens p)) (block_parts l)) in total (map stream_size log) <= w * (n * (n + 2)).
Proof. exact log_work. Qed.
Print Assumptions C76_at_most.

(** A statement that mentions no alias is parsed again and again as it is, as often as it has
    string literals, and twice more. *)
Theorem C76_no_alias : forall O lookup reparse ts, faithful O reparse ->
  reparse KBlock [TGroup Brace ts] = Some [TGroup Brace ts] -> untouched O lookup ts ->
  lvisit_block O lookup reparse [SOther ts] = Ok ([SOther ts], repeat [TGroup Brace ts] (2 + replacements O lookup ts)).
Proof. exact plain_log. Qed.
Print Assumptions C76_no_alias.

(** Therefore the square is reached, without a single alias. *)
Theorem C76_quadratic : forall O reparse n, faithful O reparse -> parse_lit_str O [TLit (LStr [] [])] = Some ([], []) ->
  let ts := repeat (TLit (LStr [] [])) n in
  reparse KBlock [TGroup Brace ts] = Some [TGroup Brace ts] ->
  exists log, lvisit_block O (fun _ => None) reparse [SOther ts] = Ok ([SOther ts], log) /\
    List.length log = n + 2 /\ total (map stream_size log) = (n + 2) * (n + 1).
Proof. exact quadratic. Qed.
Print Assumptions C76_quadratic.

(** [a = x] in [fn a() { a("%a%", "b", b); }]: three parses for the parts of the function and
    one for its name; two for the statement, one for [a] and two for the strings. *)
Example C76_example :
  let lookup := aliases [("a", VIdent (txt "x"))]%string in
  let s x y := [i x; paren [ls y; p1 ","; ls "b"; p1 ","; i "b"]; p1 ";"] in
  let f x y := [SItem (IFn [] [] [i "fn"; i x; paren []] [SOther (s x y)])] in
  let l := f "a"%string "%a%"%string in
  faithful ascii named_node /\
  lvisit_block ascii lookup named_node l = Ok (f "x" "x",
    [[]; []; [i "fn"; i "x"; paren []]; [i "fn"; i "x"; paren []];
     [brace (s "a" "%a%")]; [brace (s "x" "%a%")]; [brace (s "x" "x")]; [brace (s "x" "x")]; [brace (s "x" "x")]])%string /\
  map (part_count ascii lookup) (block_parts l) = [1; 1; 2; 5] /\
  total (map (fun p => stream_size (part_tokens p)) (block_parts l)) = 12.
Proof. split; [exact named_faithful|]. split; [|split]; vm_compute; reflexivity. Qed.

(** A statement of three strings is parsed five times. *)
Example C76_strings :
  let ts := [i "f"; paren [ls "a"; p1 ","; ls "b"]; ls ""] in
  untouched ascii (fun _ => None) ts /\
  lvisit_block ascii (fun _ => None) named_node [SOther ts] = Ok ([SOther ts], repeat [brace ts] 5).
Proof.
  split; [|vm_compute; reflexivity]. split; [reflexivity|]. cbn. intros l H.
  decompose [or] H; try discriminate; try contradiction;
    match goal with E : TLit _ = TLit _ |- _ => injection E as <- end; right; eexists; (split; [reflexivity|]); (split; [|reflexivity]); cbn; intuition discriminate.
Qed.
