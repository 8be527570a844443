(** C01-C05: loops and tuples.  Only statements, [exact], assumptions, examples. *)
From Coq Require Import String.
From Verif Require Import Base Token Types Values Ast Tuple Expand CrossProduct SpecProduct
  CrossProductProofs SpecTuple ExpandProofs LoopFacts.
Open Scope list_scope.

(** C01: [n] calls of the iterator return the first [n] combinations in nested-loop
    order and then [None] forever; it never panics. *)
Theorem C01_iterator_is_nested_loops : forall (A : Type) (srcs : list (list A)) (n : nat),
  exists c, nexts n (from_vecs srcs) = Ok (map (nth_error (all_combinations srcs)) (seq 0 n), c).
Proof. intros A; exact nexts_from_vecs. Qed.
Print Assumptions C01_iterator_is_nested_loops.

Example C01_iterator_example :
  exists c, nexts 7 (from_vecs [[1; 2]; [3]; [4; 5]]) =
  Ok ([Some [1; 3; 4]; Some [1; 3; 5]; Some [2; 3; 4]; Some [2; 3; 5]; None; None; None], c).
Proof. eexists. vm_compute. reflexivity. Qed.

(** C01: expansion succeeds exactly with one rewrite per combination, in order; each
    rewrite holds the items of every loop in loop order, then the spec's items. *)
Theorem C01_expand_is_nested_loops : forall (B : Type) (ast : raw_ast B) loops rws,
  ast_loops ast = Some loops ->
  (expand ast = Ok rws <->
   Forall2 (is_rewrite_of ast loops) (all_combinations (map loop_values loops)) rws).
Proof. intros B; exact expand_iff. Qed.
Print Assumptions C01_expand_is_nested_loops.

(** The specification's own meaning: exactly the tuples of the product, and as many
    as the product of the lengths. *)
Theorem C01_combinations_are_the_product : forall (A : Type) (ss : list (list A)) c,
  In c (nested_loops ss) <-> Forall2 (fun x l => In x l) c ss.
Proof. intros A; exact in_nested. Qed.
Print Assumptions C01_combinations_are_the_product.

Theorem C01_number_of_combinations : forall (A : Type) (ss : list (list A)),
  ss <> [] -> length (all_combinations ss) = fold_right (fun l n => length l * n) 1 ss.
Proof. intros A; exact count_combinations. Qed.
Print Assumptions C01_number_of_combinations.

Definition ex_int (id : N) (d : string) : expr := EValue id (VLitInt (txt d) (txt d)).
Definition ex_ast : raw_ast nat :=
  {| ast_loops := Some
       [ {| loop_pattern := LASimple (txt "a"); loop_values := [LSValue (ex_int 1 "1"); LSValue (ex_int 2 "2")] |};
         {| loop_pattern := LATuple [TVValue (txt "b"); TVTuple [TVValue (txt "c")]];
            loop_values := [LSTuple [TVValue (ex_int 3 "3"); TVTuple [TVValue (ex_int 4 "4")]]] |} ];
     ast_spec := Some {| spec_items := [(txt "d", ex_int 5 "5")]; is_comma_used := Some true |};
     ast_block := 42 |}.

Example C01_expand_example :
  option_map (map (fun rw => map fst (spec_items (fst rw))))
    (match expand ex_ast with Ok l => Some l | _ => None end)
  = Some [ [txt "a"; txt "b"; txt "c"; txt "d"]; [txt "a"; txt "b"; txt "c"; txt "d"] ].
Proof. vm_compute. reflexivity. Qed.

(** C02 *)
Theorem C02_empty_list_emits_nothing : forall (B : Type) (ast : raw_ast B) loops,
  ast_loops ast = Some loops -> In [] (map loop_values loops) -> expand ast = Ok [].
Proof. intros B; exact expand_empty_list. Qed.
Print Assumptions C02_empty_list_emits_nothing.

Theorem C02_no_loops_emits_once : forall (B : Type) (ast : raw_ast B),
  ast_loops ast = None ->
  exists spec, expand ast = Ok [(spec, ast_block ast)] /\
    spec_items spec = match ast_spec ast with Some sp => spec_items sp | None => [] end.
Proof. intros B; exact expand_no_loops. Qed.
Print Assumptions C02_no_loops_emits_once.

Example C02_example :
  expand {| ast_loops := Some [ {| loop_pattern := LASimple (txt "a"); loop_values := [LSValue (ex_int 1 "1")] |};
                                {| loop_pattern := LASimple (txt "b"); loop_values := [] |} ];
            ast_spec := None; ast_block := 7 |} = Ok [].
Proof. vm_compute. reflexivity. Qed.

(** C03: after [k] calls the hint is the exact number of combinations still to come,
    as long as the total fits in 64 bits. *)
Theorem C03_size_hint_exact : forall (A : Type) (ss : list (list A)) k os c,
  nexts k (from_vecs ss) = Ok (os, c) ->
  size_hint c =
  (let total := N.of_nat (length (all_combinations ss)) in
   let remaining := (total - N.of_nat k)%N in
   if (total <=? 2 ^ 64 - 1)%N || (remaining =? 0)%N then (remaining, Some remaining)
   else (0%N, None)).
Proof. intros A; exact size_hint_after. Qed.
Print Assumptions C03_size_hint_exact.

Theorem C03_reset_is_fresh : forall (A : Type) (ss : list (list A)) k os c,
  ss <> [] -> nexts k (from_vecs ss) = Ok (os, c) -> reset c = from_vecs ss.
Proof. intros A; exact reset_fresh. Qed.
Print Assumptions C03_reset_is_fresh.

(** C03 fails after [reset] when there are no sources at all: the hint says 0, but
    one (empty) combination follows. *)
Theorem C03_reset_no_sources_refuted :
  exists c : cp nat, c = reset (from_vecs []) /\ size_hint c = (0%N, Some 0%N) /\
    exists c', next c = Ok (Some [], c').
Proof. exact reset_no_sources_wrong. Qed.
Print Assumptions C03_reset_no_sources_refuted.

Example C03_example :
  exists os c, nexts 3 (from_vecs [[1; 2]; [3]; [4; 5; 6]]) = Ok (os, c) /\ size_hint c = (3%N, Some 3%N).
Proof. eexists; eexists. split; [vm_compute; reflexivity|]. vm_compute. reflexivity. Qed.

(** C04: for equal shapes every alias gets the value at its own path, every path once. *)
Theorem C04_destructuring_is_positional : forall a e,
  shape a = shape e ->
  exists paths items,
    make_spec_items (LATuple a) (LSTuple e) = Ok items /\
    NoDup paths /\
    (forall p, In p paths <-> leaf_at p a <> None) /\
    Forall2 (fun p it => leaf_at p a = Some (fst it) /\ leaf_at p e = Some (snd it)) paths items.
Proof. exact make_spec_items_same_shape. Qed.
Print Assumptions C04_destructuring_is_positional.

Definition ex_pat : tuple alias :=
  [TVTuple [TVValue (txt "a"); TVTuple [TVValue (txt "b")]]; TVValue (txt "c"); TVTuple [TVValue (txt "d")]].
Definition ex_val : tuple expr :=
  [TVTuple [TVValue (ex_int 1 "1"); TVTuple [TVValue (ex_int 2 "2")]]; TVValue (ex_int 3 "3"); TVTuple [TVValue (ex_int 4 "4")]].
Example C04_example :
  shape ex_pat = shape ex_val /\
  make_spec_items (LATuple ex_pat) (LSTuple ex_val) =
  Ok [(txt "c", ex_int 3 "3"); (txt "a", ex_int 1 "1"); (txt "d", ex_int 4 "4"); (txt "b", ex_int 2 "2")].
Proof. split; vm_compute; reflexivity. Qed.

(** C05 is false as stated: [for ((a), b) in [((1, 2))]] is accepted and binds [a] to
    the value at another position. *)
Theorem C05_shape_mismatch_rejected_refuted :
  exists (a : tuple alias) (e : tuple expr) items,
    shape a <> shape e /\
    make_spec_items (LATuple a) (LSTuple e) = Ok items /\
    exists p q x v, leaf_at p a = Some x /\ In (x, v) items /\ leaf_at p e <> Some v /\ leaf_at q e = Some v.
Proof. exact mismatched_shape_accepted. Qed.
Print Assumptions C05_shape_mismatch_rejected_refuted.

(** What is checked instead: the sequence of node kinds in level order. *)
Theorem C05_accepts_iff_same_level_order : forall a e,
  (exists items, make_spec_items (LATuple a) (LSTuple e) = Ok items) <->
  kinds_in_level_order a = kinds_in_level_order e.
Proof. exact make_spec_items_accepts_iff. Qed.
Print Assumptions C05_accepts_iff_same_level_order.

Theorem C05_other_tuples_are_type_errors : forall a e,
  kinds_in_level_order a <> kinds_in_level_order e ->
  make_spec_items (LATuple a) (LSTuple e) = Err TypeError.
Proof. exact make_spec_items_error. Qed.
Print Assumptions C05_other_tuples_are_type_errors.

(** For alias tuples without nesting the check is exact.  Missing for the full
    property: nested alias tuples, where it is false. *)
Theorem C05_flat_tuples_partial : forall (a : tuple alias) (e : tuple expr),
  forallb (fun t => negb (is_tuple t)) a = true ->
  kinds_in_level_order a = kinds_in_level_order e -> shape a = shape e.
Proof. intros a e; exact (flat_accepts_same_shape a e). Qed.
Print Assumptions C05_flat_tuples_partial.

Example C05_example :
  make_spec_items (LATuple [TVValue (txt "a"); TVValue (txt "b")])
    (LSTuple [TVTuple [TVValue (ex_int 1 "1")]; TVValue (ex_int 2 "2")]) = Err TypeError.
Proof. vm_compute. reflexivity. Qed.
