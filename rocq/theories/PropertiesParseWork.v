(** C79: how often the parser of values is started.  [tokens_of] is in SpecSize. *)
From Coq Require Import String.
From Verif Require Import Base Token Types Values Ast Item Interpreter Parse ParseWork Macro SpecSize ParseWorkProofs
  Concrete ConcreteSpecs ConcreteRuns ConcreteParse.
Open Scope list_scope.

(** The parser that counts does what the parser does. *)
Theorem C79_same : forall P hf n c ts,
  match snd (wparse_header P hf (n, c) (map (wann P hf) ts)) with
  | Some (loops, spec, rest, u) => parse_header P hf n (map (ann P hf) ts) = Some (loops, spec, map w_plain rest, u)
  | None => parse_header P hf n (map (ann P hf) ts) = None
  end.
Proof. exact header_counts. Qed.
Print Assumptions C79_same.

(** The loops and the definitions of a macro take at most one round of attempts for every
    token outside of braces, however deep calls and tuples are nested, and whether or not
    they parse. *)
Theorem C79_linear : forall P hf ts, (parse_rounds P hf ts <= tokens_of ts)%N.
Proof. exact rounds_fit. Qed.
Print Assumptions C79_linear.

(** A round makes one to seven values. *)
Theorem C79_round : forall P term n ts n' r, parse_value P term n ts = (n', r) -> (n + 1 <= n' <= n + 7)%N.
Proof. exact round_draws. Qed.
Print Assumptions C79_round.

(** [a = concat(concat(x, y), z), b = u,]; [upper(upper(upper(x)))] is one round, since a call
    is not tried as a value too; a value in parentheses that is no tuple is parsed twice. *)
Example C79_example :
  let f x args := [x; paren args] in
  let rounds ts := (parse_rounds ascii_parsers known0 ts, tokens_of ts) in
  rounds ([i "a"; p1 "="] ++ f (i "concat") (f (i "concat") [i "x"; p1 ","; i "y"] ++ [p1 ","; i "z"]) ++ [p1 ","; i "b"; p1 "="; i "u"; p1 ","; brace (fn_named "a")]) = (4, 17)%N /\
  rounds ([i "a"; p1 "="] ++ f (i "upper") (f (i "upper") (f (i "upper") [i "x"])) ++ [p1 ","; brace []]) = (1, 11)%N /\
  rounds [i "for"; i "x"; i "in"; bracket [paren [i "a"; p1 ","; paren [i "b"]]; p1 ","; i "c"]; brace []] = (3, 12)%N /\
  rounds [i "for"; i "x"; i "in"; bracket [paren [paren [i "a"]; p1 "+"; i "b"]]; brace []] = (2, 10)%N.
Proof. repeat split; vm_compute; reflexivity. Qed.
