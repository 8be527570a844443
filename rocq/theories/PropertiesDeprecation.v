(** C27-C29: deprecation warnings.  [nodes], [skeleton], [annotated], [deprecation], [raised],
    [blocks_of] and [covers] are in SpecDeprecation. *)
From Coq Require Import String Sorting.Sorted.
From Verif Require Import Base Token Types Values Ast Env SpecSubst Item Deprecation Interpreter
  SpecDeprecation DeprecationProofs InterpreterProofs Concrete ConcreteSpecs ConcreteRuns RunFacts.
Open Scope list_scope.

(** C27: after any number of invocations nothing is pending. *)
Theorem C27_nothing_pending : forall O Y invs t outs, run O Y None invs = (t, outs) ->
  (invs = [] /\ t = None) \/ exists inv r, invs = inv :: r /\
    t = Some {| warnings := []; borrowed := 0; s_prefix := inv_prefix inv |}.
Proof. exact run_leaves_idle. Qed.
Print Assumptions C27_nothing_pending.

(** Every output is a function of its own invocation and the name of the thread's first
    macro. *)
Theorem C27_outputs_are_separate : forall O Y, exists out : str -> invocation -> output, forall inv r,
  snd (run O Y None (inv :: r)) = map (out (inv_prefix inv)) (inv :: r).
Proof. exact run_no_leak. Qed.
Print Assumptions C27_outputs_are_separate.

(** The only warnings attached to its code are its own. *)
Theorem C27_own_warnings_only : forall O Y hist inv t ts,
  fst (run O Y None hist) = t -> snd (compose_core O Y t inv) = Code ts ->
  exists prefix blocks, blocks_of O Y inv blocks /\ prefix = inv_prefix (hd inv hist) /\
    ts = concat (map (fun b => forest_tokens (emit {| warnings := raised inv; borrowed := 1; s_prefix := prefix |}
                                                   (as_forest Y (block_tokens b)))) blocks).
Proof. exact code_after_any_history. Qed.
Print Assumptions C27_own_warnings_only.

Theorem C27_no_warning_no_attribute : forall O Y hist inv t ts, covers Y -> raised inv = [] ->
  fst (run O Y None hist) = t -> snd (compose_core O Y t inv) = Code ts ->
  exists blocks, blocks_of O Y inv blocks /\ ts = concat (map block_tokens blocks).
Proof. exact quiet_code. Qed.
Print Assumptions C27_no_warning_no_attribute.

Theorem C27_history_irrelevant : forall O Y hist hist' inv, raised inv = [] ->
  snd (compose_core O Y (fst (run O Y None hist)) inv) = snd (compose_core O Y (fst (run O Y None hist')) inv).
Proof. exact quiet_history. Qed.
Print Assumptions C27_history_irrelevant.

Example C27_example :
  let f x := [i "fn"; i x; paren []; brace []] in
  let bad := fn_ast [(txt "name", id_ 1 "f"); (txt "name", id_ 2 "g")] in
  covers syntax0 /\
  run ascii syntax0 None
    [failed_macro "compose!: " true; call_macro "compose!: " true bad; call_macro "compose!: " true (fn_ast [(txt "name", id_ 1 "f")]);
     call_macro "compose!: " false (fn_ast [(txt "name", id_ 1 "g")])] =
  (Some {| warnings := []; borrowed := 0; s_prefix := txt "compose!: " |},
   [SyntaxError; CompileError (RedefinedNameError (txt "name"));
    Code (p1 "#" :: bracket [i "deprecated"; paren [i "since"; p1 "="; ls "0.0.5"; p1 ",";
                                                    i "note"; p1 "="; TLit (LStr (semicolon_note "compose!: ") []); p1 ","]] :: f "f"%string);
    Code (f "g"%string)]).
Proof. split; [exact syntax0_covers|]. vm_compute. reflexivity. Qed.

(** C28: the nodes are annotated as specified; nothing else changes. *)
Theorem C28_annotates : forall s f,
  annotated (s_prefix s) (warnings s) (nodes f) (nodes (emit s f)) /\ skeleton (emit s f) = skeleton f.
Proof. exact emit_spec. Qed.
Print Assumptions C28_annotates.

(** That determines the result. *)
Theorem C28_specification_is_complete : forall f f', skeleton f = skeleton f' -> nodes f = nodes f' -> f = f'.
Proof. exact forest_determined. Qed.
Print Assumptions C28_specification_is_complete.
Theorem C28_specification_is_functional : forall p ws l l1 l2, annotated p ws l l1 -> annotated p ws l l2 -> l1 = l2.
Proof. exact annotated_unique. Qed.
Print Assumptions C28_specification_is_functional.

Theorem C28_at_most_one_per_node : forall s f,
  Forall2 (fun n n' => n' = n \/
     (~ is_deprecated n /\ exists w, In w (warnings s) /\ n' = (fst n ++ [deprecation (s_prefix s) w], snd n)))
    (nodes f) (nodes (emit s f)).
Proof. exact emit_each. Qed.
Print Assumptions C28_at_most_one_per_node.

(** The attributes added, from the first node to the last, are those of the first warnings;
    none is left over unless every node is deprecated. *)
Theorem C28_in_order_until_exhausted : forall s f, exists k,
  flat_map (fun nn => skipn (length (fst (fst nn))) (fst (snd nn))) (combine (nodes f) (nodes (emit s f))) =
    map (deprecation (s_prefix s)) (firstn k (warnings s)) /\
  (length (warnings s) <= k \/ Forall is_deprecated (nodes (emit s f))).
Proof. exact emit_until. Qed.
Print Assumptions C28_in_order_until_exhausted.

(** Adding a warning twice is adding it once. *)
Theorem C28_warnings_are_a_set : forall ws s, s = fold_left (fun s w => add_warning w s) ws (new_service []) ->
  NoDup (warnings s) /\ forall w, In w (warnings s) <-> In w ws.
Proof. exact warnings_sorted. Qed.
Print Assumptions C28_warnings_are_a_set.

(** They are attached in the order of their notes. *)
Theorem C28_sorted : forall ws s, s = fold_left (fun s w => add_warning w s) ws (new_service []) ->
  StronglySorted earlier (warnings s).
Proof. exact warnings_earlier. Qed.
Print Assumptions C28_sorted.

Example C28_example :
  let w x := {| note := txt x; since := txt "1" |} in
  let s := fold_left (fun s w => add_warning w s) [w "b"; w "a"; w "b"]%string (new_service (txt "p: ")) in
  let dep := {| is_inner := false; meta := [i "deprecated"] |} in
  nodes (emit s [DNode [dep] false [DTok (i "struct"); DGroup Brace [DNode [] false [DTok (i "x")]]];
                 DTok (i "y"); DNode [doc "text"] false []; DNode [] false []]) =
  [([dep], false); ([deprecation (txt "p: ") (w "a"%string)], false);
   ([doc "text"; deprecation (txt "p: ") (w "b"%string)], false); ([], false)].
Proof. vm_compute. reflexivity. Qed.

(** C29 is false: the first macro used in a thread gives its name to all later warnings. *)
Theorem C29_own_name_refuted : exists hist inv ts,
  inv_prefix inv = txt "compose!: " /\
  snd (compose_core ascii syntax0 (fst (run ascii syntax0 None hist)) inv) = Code ts /\
  In (TLit (LStr (semicolon_note "compose_item!: ") [])) (leaves ts) /\
  ~ In (TLit (LStr (semicolon_note "compose!: ") [])) (leaves ts).
Proof. exact prefix_sticks. Qed.
Print Assumptions C29_own_name_refuted.

(** It holds in threads that use only one of the macros.  Missing: threads that use
    several, where [C27_own_warnings_only] says which name appears. *)
Theorem C29_own_name_partial : forall O Y hist inv ts,
  Forall (fun i => inv_prefix i = inv_prefix inv) hist ->
  snd (compose_core O Y (fst (run O Y None hist)) inv) = Code ts ->
  exists blocks, blocks_of O Y inv blocks /\
    ts = concat (map (fun b => forest_tokens (emit {| warnings := raised inv; borrowed := 1; s_prefix := inv_prefix inv |}
                                                   (as_forest Y (block_tokens b)))) blocks).
Proof. exact same_prefix. Qed.
Print Assumptions C29_own_name_partial.

Example C29_example : exists ts,
  snd (compose_core ascii syntax0 (fst (run ascii syntax0 None [failed_macro "compose!: " true]))
        (call_macro "compose!: " true (fn_ast [(txt "name", id_ 1 "f")]))) = Code ts /\
  In (TLit (LStr (semicolon_note "compose!: ") [])) (leaves ts).
Proof. eexists. split; [vm_compute; reflexivity|]. vm_compute. tauto. Qed.
