(** C51: the arithmetic of coercion costs. *)
From Coq Require Import String.
From Verif Require Import Base Token Types Values Ast Env Resolve Eval Item Interpreter Parse Macro SpecElab Costs CostMacro SpecCosts SpecSize
  CostProofs CostUseProofs Concrete ConcreteSpecs ConcreteRuns ConcreteParse.
Open Scope list_scope.

(** A resolver whose arithmetic is right below a bound does the same as the exact one for
    all definitions whose weight is below it, errors and panics included; with 32 bits that
    is both the checked and the wrapping resolver. *)
Theorem C51_right : forall env arith bound, right_below bound arith -> forall O spec,
  Forall (fun it => (weight (snd it) < bound)%N) (spec_items spec) ->
  make_substitutions_with arith env O spec = make_substitutions O env spec.
Proof. exact substitutions_agree. Qed.
Print Assumptions C51_right.
Theorem C51_checked : right_below (2 ^ 32) checked.
Proof. exact checked_right. Qed.
Print Assumptions C51_checked.
Theorem C51_wrapping : right_below (2 ^ 32) wrapping.
Proof. exact wrapping_right. Qed.
Print Assumptions C51_wrapping.

(** [a = concat(x, concat(y, 1))] weighs 65. *)
Example C51_example :
  let spec := spec_of [(txt "a", ECall 0 (txt "concat") [EValue 1 (VIdent (txt "x")); ECall 2 (txt "concat") [EValue 3 (VIdent (txt "y")); EValue 4 (VLitInt (txt "1") (txt "1"))] None] None)] in
  map (fun it => weight (snd it)) (spec_items spec) = [65%N] /\
  make_substitutions_with checked env0 ascii spec = Ok [(txt "a", VIdent (txt "xy1"))].
Proof. split; vm_compute; reflexivity. Qed.

(** Without the bound it is false: thirty nested calls of [concat] overflow; a debug build
    of the macro panics... *)
Theorem C51_overflow_refuted : exists spec v, NoDup (item_ids (spec_items spec)) /\ List.length (spec_items spec) = 2 /\
  make_substitutions ascii env0 spec = Ok v /\ make_substitutions_with checked env0 ascii spec = Panic POverflow.
Proof. exact overflow_panics. Qed.
Print Assumptions C51_overflow_refuted.

(** ... and a release build can choose another overload, here two tokens instead of an
    identifier. *)
Theorem C51_choice_refuted : exists spec p x ts, NoDup (item_ids (spec_items spec)) /\
  make_substitutions ascii env0 spec = Ok [p; (txt "a", VIdent x)] /\
  make_substitutions_with wrapping env0 ascii spec = Ok [p; (txt "a", VTokens ts)] /\ List.length ts = 2.
Proof. exact overflow_chooses. Qed.
Print Assumptions C51_choice_refuted.

(** A whole compilation: costs of 32 bits make no difference, whatever the definitions, if
    in what is written outside of braces five times the number of tokens, doubled for every
    pair of delimiters they are nested in, is below [2 ^ 32]. *)
Theorem C51_uses : forall arith O P Y uses, arith = checked \/ arith = wrapping ->
  Forall (fun u => let ts := written (u_source u) in (5 * tokens_of ts * 2 ^ nesting_of ts < 2 ^ 32)%N) uses ->
  expand_uses_with arith O P Y uses = expand_uses O P Y uses.
Proof. exact uses_sized. Qed.
Print Assumptions C51_uses.

(** The sharper bound on the tokens, and for any width. *)
Theorem C51_uses_any_width : forall arith bound, right_below bound arith -> forall O P Y uses,
  Forall (fun u => (heft_of 5 2 (written (u_source u)) < bound)%N) uses ->
  expand_uses_with arith O P Y uses = expand_uses O P Y uses.
Proof. exact uses_agree. Qed.
Print Assumptions C51_uses_any_width.

(** [compose!(p = to_path(x), a = concat(concat(..p..)), {})]: twenty calls are within the
    bound, with thirty the macro panics. *)
Example C51_uses_example :
  let ts n := written (u_source (deep_use n)) in
  tokens_of (ts 20%nat) = 51%N /\ nesting_of (ts 20%nat) = 20%N /\ (5 * tokens_of (ts 20%nat) * 2 ^ nesting_of (ts 20%nat) <? 2 ^ 32)%N = true /\
  expand_uses_with checked ascii ascii_parsers syntax0 [deep_use 20] = [Code []].
Proof. repeat split; vm_compute; reflexivity. Qed.
Theorem C51_uses_refuted : exists u, expand_uses ascii ascii_parsers syntax0 [u] = [Code []] /\
  expand_uses_with checked ascii ascii_parsers syntax0 [u] = [Panicked POverflow].
Proof. exact (ex_intro _ (deep_use 30) use_overflows). Qed.
Print Assumptions C51_uses_refuted.
