(** The pipeline computes the meaning of SpecMacro. *)
From Coq Require Import String Bool Permutation.
From Verif Require Import Base Token Types Values Ast Env Tuple Expand CrossProduct Resolve Eval Item AliasSubstitution Deprecation Interpreter Parse Macro
  SpecProduct SpecTuple SpecElab SpecSubst SpecItem SpecParse SpecDeprecation SpecMacro
  ExpandProofs LoopFacts ElabProofs ElabFacts VisitorProofs InterpreterProofs ParseIds MacroProofs.
Open Scope list_scope.

Lemma bfs_values_kinds {V} fuel : forall q : tuple V,
  bfs_values fuel q = match bfs_kinds fuel q with
                      | Ok ks => Ok (flat_map (fun n => match n with TVValue v => [v] | TVTuple _ => [] end) ks)
                      | Err e => Err e | Panic p => Panic p end.
Proof.
  induction fuel as [|fuel IH]; intros [|[v|l] q]; try reflexivity; cbn [bfs_values bfs_kinds]; rewrite IH; destruct (bfs_kinds _ _); reflexivity.
Qed.
Lemma iter_destructuring_nodes {V} (t : tuple V) : iter_destructuring t = Ok (nodes_by_level (depth t) t).
Proof.
  unfold iter_destructuring.
  remember (depth t) as d eqn:Hd. revert t Hd. induction d as [|d IH]; intros t Hd.
  - destruct t as [|x t]; [reflexivity|]. rewrite depth_children in Hd by discriminate. discriminate.
  - destruct t as [|x t]; [discriminate Hd|].
    remember (x :: t) as q eqn:Hq.
    pose proof (bfs_kinds_level q (tuple_size q) []) as E.
    rewrite app_nil_r in E. specialize (E ltac:(rewrite tuple_size_children; lia)).
    cbn [app] in E. replace (tuple_size q - length q) with (tuple_size (flat_map children q)) in E
      by (rewrite (tuple_size_children q); lia).
    rewrite E, IH; [reflexivity|]. rewrite depth_children in Hd by (subst; discriminate). lia.
Qed.
Lemma iter_recursive_values {V} (t : tuple V) : iter_recursive t = Ok (values_in_level_order t).
Proof.
  unfold iter_recursive. rewrite bfs_values_kinds. fold (iter_destructuring t). rewrite iter_destructuring_nodes. reflexivity.
Qed.
Lemma make_spec_items_matched p v : make_spec_items p v = match matched p v with Some l => Ok l | None => Err TypeError end.
Proof.
  destruct p as [a|a], v as [e|e]; try reflexivity. cbn [make_spec_items matched].
  rewrite match_tuples_iff, !iter_recursive_values. destruct (list_eq_dec _ _ _); reflexivity.
Qed.
Lemma loop_items_matched loops : forall vs,
  loop_items loops vs = match all_matched (map loop_pattern loops) vs with Some l => Ok l | None => Err TypeError end.
Proof.
  induction loops as [|l loops IH]; intros [|v vs]; try reflexivity. cbn [loop_items all_matched map].
  rewrite make_spec_items_matched, IH. destruct (matched _ _); [|reflexivity]. destruct (all_matched _ _); reflexivity.
Qed.

Lemma Forall2_weaken {A B} (R S : A -> B -> Prop) l l' : (forall a b, R a b -> S a b) -> Forall2 R l l' -> Forall2 S l l'.
Proof. intros H HF. induction HF; constructor; auto. Qed.
Lemma Forall2_in {A B} (R : A -> B -> Prop) l l' : Forall2 R l l' -> Forall2 (fun a b => In a l /\ In b l' /\ R a b) l l'.
Proof.
  intros HF. induction HF as [|a b l l' H HF IH]; constructor; [cbn; auto|].
  eapply Forall2_weaken; [|exact IH]. cbn. tauto.
Qed.

Section Meaning.
Context (O : oracles) (Y : syntax).

Definition with_items {B} (b : B) (items : list spec_item) (rw : block_rewrite B) : Prop :=
  snd rw = b /\ spec_items (fst rw) = items.

Lemma expand_rounds (ast : raw_ast (list stmt)) :
  match all_some (rounds ast) with
  | Some rs => exists rws, expand ast = Ok rws /\ Forall2 (with_items (ast_block ast)) rs rws
  | None => expand ast = Err TypeError
  end.
Proof.
  unfold rounds, own_items. destruct (ast_loops ast) as [loops|] eqn:El.
  - rewrite (expand_first_error ast loops El). induction (all_combinations (map loop_values loops)) as [|c cs IH]; [exists []; split; [reflexivity|constructor]|].
    cbn [map all_some mapM].
    assert (E : match all_matched (map loop_pattern loops) c with
                | Some items => exists rw, rewrite_for ast loops c = Ok rw /\
                    with_items (ast_block ast) (items ++ match ast_spec ast with Some s => spec_items s | None => [] end) rw
                | None => rewrite_for ast loops c = Err TypeError
                end).
    { unfold rewrite_for. rewrite loop_items_matched. destruct (all_matched _ c) as [items|]; [|reflexivity]. cbn [bind].
      eexists. split; [reflexivity|]. split; [reflexivity|]. destruct (ast_spec ast); cbn; rewrite ?app_nil_r; reflexivity. }
    destruct (all_matched (map loop_pattern loops) c) as [items|]; cbn [option_map]; [|rewrite E; reflexivity].
    destruct E as (rw & -> & Hw). cbn [bind]. destruct (all_some _) as [rs|]; cbn [option_map].
    + destruct IH as (rws & IH & HF). rewrite IH. cbn [bind]. eexists. split; [reflexivity|]. constructor; [exact Hw|exact HF].
    + rewrite IH. reflexivity.
  - unfold expand. rewrite El. cbn [all_some option_map]. eexists. split; [reflexivity|]. constructor; [|constructor].
    split; [reflexivity|]. destruct (ast_spec ast); reflexivity.
Qed.

(** Aliases of a round. *)
Lemma matched_aliases p v l : matched p v = Some l -> forall x, In x (map fst l) -> In x (pattern_aliases p).
Proof.
  destruct p as [a|a], v as [e|e]; try discriminate; cbn [matched pattern_aliases].
  - intros H. injection H as <-. auto.
  - destruct (list_eq_dec _ _ _); [|discriminate]. intros H. injection H as <-. intros x Hx.
    apply in_map_iff in Hx as ([y z] & <- & Hx). apply in_combine_l in Hx. exact Hx.
Qed.
Lemma all_matched_aliases ps : forall vs l, all_matched ps vs = Some l -> forall x, In x (map fst l) -> In x (flat_map pattern_aliases ps).
Proof.
  induction ps as [|p ps IH]; intros [|v vs] l H x Hx; cbn [all_matched] in H; try (injection H as <-; destruct Hx).
  destruct (matched p v) as [a|] eqn:E1; [|discriminate]. destruct (all_matched ps vs) as [b|] eqn:E2; [|discriminate].
  injection H as <-. rewrite map_app in Hx. cbn [flat_map]. apply in_or_app. apply in_app_or in Hx as [Hx|Hx].
  - left. eapply matched_aliases; eauto.
  - right. eapply IH; eauto.
Qed.
Lemma all_some_in {A} (l : list (option A)) : forall rs x, all_some l = Some rs -> In x rs -> In (Some x) l.
Proof.
  induction l as [|[y|] l IH]; intros rs x H Hx; cbn [all_some] in H; try discriminate.
  - injection H as <-. destruct Hx.
  - destruct (all_some l) as [r|]; [|discriminate]. injection H as <-. destruct Hx as [->|Hx]; [left; reflexivity|right; eauto].
Qed.
Lemma round_aliases (ast : raw_ast (list stmt)) rs items x : all_some (rounds ast) = Some rs -> In items rs ->
  In x (map fst items) -> In x (ast_aliases ast).
Proof.
  intros Hr Hin Hx. apply (all_some_in _ _ _ Hr) in Hin. unfold rounds, ast_aliases in *.
  destruct (ast_loops ast) as [loops|].
  - apply in_map_iff in Hin as (c & H & _). destruct (all_matched _ c) as [its|] eqn:E; [|discriminate]. injection H as <-.
    rewrite map_app in Hx. apply in_or_app. apply in_app_or in Hx as [Hx|Hx]; [left|right; exact Hx].
    pose proof (all_matched_aliases _ _ _ E _ Hx) as H. apply in_flat_map in H as (p & Hp & H). apply in_map_iff in Hp as (l & <- & Hl).
    apply in_flat_map. eauto.
  - destruct Hin as [H|[]]. injection H as <-. exact Hx.
Qed.

(** Bindings are for the aliases. *)
Lemma run_items_names seed tis : forall ctx bs, run_items O seed ctx tis = Ok bs -> map fst bs = map fst tis.
Proof.
  induction tis as [|[x te] tis IH]; intros ctx bs H; cbn [run_items] in H; [injection H as <-; reflexivity|].
  destruct (SpecElab.run O seed ctx te) as [v| |]; try discriminate. cbn [bind] in H.
  destruct (run_items O seed ((x, v) :: ctx) tis) as [r| |] eqn:E; try discriminate. injection H as <-. cbn [map fst]. f_equal. eauto.
Qed.
Lemma elab_items_names env items : forall G tis, elab_items env G items = Ok tis -> map fst tis = map fst items.
Proof.
  induction items as [|[x e] items IH]; intros G tis H; cbn [elab_items] in H; [injection H as <-; reflexivity|].
  destruct (elab env G e None) as [[te c]|]; [|discriminate]. destruct (assoc_str x G); [discriminate|].
  destruct (elab_items env ((x, target_of te) :: G) items) as [r| |] eqn:E; try discriminate. injection H as <-. cbn [map fst]. f_equal. eauto.
Qed.
Lemma bindings_names env items bs : bindings O env items = Ok bs -> map fst bs = map fst items.
Proof.
  unfold bindings. destruct (elab_items env [] items) as [tis| |] eqn:E; try discriminate. cbn [bind]. intros H.
  rewrite (run_items_names _ _ _ _ H). eapply elab_items_names; exact E.
Qed.
Lemma assoc_none (bs : list (str * value)) x : ~ In x (map fst bs) -> assoc_str x bs = None.
Proof. apply ElabFacts.assoc_str_None. Qed.

(** One round of the machine against one round of the meaning. *)
Definition agree (machine spec : res (list tt)) : Prop :=
  match machine with
  | Ok ts => spec = Ok ts
  | Err (SubstitutionError _) => True
  | Err e => spec = Err e
  | Panic p => p = PErrorData \/ p = PUnreachable \/ spec = Panic p
  end.

Lemma round_agrees seed k prefix inv block items (rw : block_rewrite (list stmt)) :
  faithful O (reparse Y) -> with_items block items rw -> NoDup (item_ids items) ->
  Forall (calls_known (has_func (new_initialized O seed k))) (map snd items) ->
  (forall x, In x item_keywords -> ~ In x (map fst items)) ->
  agree (execute_block_rewrite O Y (new_initialized O seed k) (thread_for prefix inv) rw)
        (let! c := round_code O (new_initialized O seed k) block items in Ok (with_warnings Y prefix (raised inv) c)).
Proof.
  intros Hf (Hb & Hi) Hn Hk Hkw. unfold execute_block_rewrite, round_code.
  rewrite <- Hi in Hn, Hk. pose proof (definitions_fail O seed k (fst rw) Hn Hk) as Hd.
  rewrite make_substitutions_spec in * by exact Hn. rewrite Hi in *.
  destruct (bindings O (new_initialized O seed k) items) as [bs|e|p] eqn:Ebs; cbn [bind agree].
  - unfold substitute. pose proof (class_block O (fun x => assoc_str x bs) (reparse Y) (snd rw)) as Hc.
    pose proof (block_emit O (fun x => assoc_str x bs) (reparse Y) Hf) as He.
    specialize (He ltac:(intros x Hx; apply assoc_none; rewrite (bindings_names _ _ _ Ebs); auto)).
    destruct (visit_block O (fun x => assoc_str x bs) (reparse Y) (snd rw)) as [b|e|p] eqn:Ev; cbn [bind agree].
    + f_equal. unfold with_warnings. cbn [scope_emit thread_for]. rewrite (He _ _ Ev), Hb. reflexivity.
    + destruct Hc as (x & -> & _). exact I.
    + destruct Hc; auto.
  - destruct e; auto.
  - auto.
Qed.

Lemma agree_all seed k prefix inv block rs rws :
  Forall2 (fun items rw => agree (execute_block_rewrite O Y (new_initialized O seed k) (thread_for prefix inv) rw)
        (let! c := round_code O (new_initialized O seed k) block items in Ok (with_warnings Y prefix (raised inv) c))) rs rws ->
  agree (let! outs := mapM (execute_block_rewrite O Y (new_initialized O seed k) (thread_for prefix inv)) rws in Ok (concat outs))
        (let! codes := mapM (round_code O (new_initialized O seed k) block) rs in Ok (concat (map (with_warnings Y prefix (raised inv)) codes))).
Proof.
  intros H. set (env := new_initialized O seed k) in *. set (f := execute_block_rewrite O Y env (thread_for prefix inv)) in *.
  set (w := with_warnings Y prefix (raised inv)) in *.
  assert (G : match mapM f rws with
              | Ok outs => exists codes, mapM (round_code O env block) rs = Ok codes /\ map w codes = outs
              | Err (SubstitutionError _) => True
              | Err e => mapM (round_code O env block) rs = Err e
              | Panic p => p = PErrorData \/ p = PUnreachable \/ mapM (round_code O env block) rs = Panic p
              end).
  { induction H as [|items rw rs rws Ha HF IH]; [exists []; split; reflexivity|]. cbn [mapM].
    destruct (f rw) as [o|e|p]; cbn [bind agree] in *.
    - destruct (round_code O env block items) as [c| |]; try discriminate Ha. cbn [bind] in *. injection Ha as Ha.
      destruct (mapM f rws) as [outs|e|p]; cbn [bind].
      + destruct IH as (codes & -> & <-). exists (c :: codes). split; [reflexivity|]. cbn [map]. congruence.
      + destruct e; try rewrite IH; auto.
      + destruct IH as [IH|[IH|IH]]; auto. rewrite IH. auto.
    - destruct e; auto; destruct (round_code O env block items); try discriminate Ha; cbn [bind] in *; congruence.
    - destruct Ha as [Ha|[Ha|Ha]]; auto. right. right. destruct (round_code O env block items); try discriminate Ha; cbn [bind] in *; congruence. }
  destruct (mapM f rws) as [outs|e|p]; cbn [bind agree].
  - destruct G as (codes & -> & <-). reflexivity.
  - destruct e; auto; rewrite G; reflexivity.
  - destruct G as [G|[G|G]]; auto. rewrite G. auto.
Qed.

Context (P : parsers).
Lemma execute_meaning seed k n s ast prefix : let inv := invocation_of O P seed k n s in
  faithful O (reparse Y) -> p_ast (inv_parsed inv) = Ok (Some ast) ->
  (forall x, In x item_keywords -> ~ In x (ast_aliases ast)) ->
  agree (execute O Y (new_initialized O seed k) (thread_for prefix inv) ast)
        (meaning O (new_initialized O seed k) (with_warnings Y prefix (raised inv)) ast).
Proof.
  intros inv Hf Hp Hkw. unfold execute, meaning. pose proof (expand_rounds ast) as Hx.
  destruct (all_some (rounds ast)) as [rs|] eqn:Er; [|rewrite Hx; reflexivity].
  destruct Hx as (rws & Hx & HF). rewrite Hx. cbn [bind]. apply agree_all.
  apply Forall2_in in HF. eapply Forall2_weaken; [|exact HF]. intros items rw (Hi1 & Hi2 & Hb & Hi).
  destruct (source_rewrite O P _ _ _ _ _ _ _ Hp Hx Hi2) as (Hn & Hk).
  rewrite Hi in Hn, Hk. apply round_agrees; auto; [split; auto|].
  intros x Hx1 Hx2. apply (Hkw x Hx1). eapply round_aliases; [exact Er|exact Hi1|exact Hx2].
Qed.
End Meaning.

(** ** All the uses of a compilation *)
Section Uses.
Context (O : oracles) (P : parsers) (Y : syntax).

Lemma use_output uses i u : nth_error uses i = Some u ->
  nth_error (expand_uses O P Y uses) i = Some (outcome O Y (prefix_of (u_source (hd u uses))) (invocation_for O P u)).
Proof.
  intros H. unfold expand_uses. destruct uses as [|u0 r]; [destruct i; discriminate H|].
  cbn [map]. rewrite run_fresh. cbn [snd hd].
  change (invocation_for O P u0 :: map (invocation_for O P) r) with (map (invocation_for O P) (u0 :: r)). rewrite map_map.
  rewrite nth_error_map, H. reflexivity.
Qed.

Lemma use_meaning uses i u ast : faithful O (reparse Y) -> nth_error uses i = Some u ->
  p_ast (inv_parsed (invocation_for O P u)) = Ok (Some ast) ->
  (forall x, In x item_keywords -> ~ In x (ast_aliases ast)) ->
  let means := meaning O (new_initialized O (u_seed u) (u_first_id u))
                 (with_warnings Y (prefix_of (u_source (hd u uses))) (raised (invocation_for O P u))) ast in
  exists o, nth_error (expand_uses O P Y uses) i = Some o /\
    match o with
    | Code ts => means = Ok ts
    | SyntaxError => False
    | CompileError (SubstitutionError _) => True
    | CompileError e => means = Err e
    | Panicked p => p = PErrorData \/ p = PUnreachable \/ means = Panic p
    end.
Proof.
  intros Hf Hu Hp Hk means. eexists. split; [apply use_output; exact Hu|]. unfold outcome. rewrite Hp.
  pose proof (execute_meaning O Y P (u_seed u) (u_first_id u) (u_next_id u) (u_source u) ast (prefix_of (u_source (hd u uses))) Hf Hp Hk) as H.
  cbn zeta in H. fold (invocation_for O P u) in H. fold means in H. cbn [inv_seed inv_first_id invocation_for invocation_of].
  unfold invocation_for in *. cbn [inv_seed inv_first_id invocation_of] in *.
  destruct (execute _ _ _ _ _) as [ts|e|p]; exact H.
Qed.

Lemma meaning_ext env f g ast : (forall ts, f ts = g ts) -> meaning O env f ast = meaning O env g ast.
Proof.
  intros H. unfold meaning. destruct (all_some (rounds ast)); [|reflexivity]. destruct (mapM _ _); [|reflexivity|reflexivity].
  cbn [bind]. do 2 f_equal. apply map_ext. exact H.
Qed.
Lemma quiet_finish prefix ts : covers Y -> with_warnings Y prefix [] ts = ts.
Proof. intros H. unfold with_warnings, emit. cbn [warnings]. apply H. Qed.

Lemma use_meaning_quiet uses i u ast : faithful O (reparse Y) -> covers Y -> nth_error uses i = Some u ->
  p_ast (inv_parsed (invocation_for O P u)) = Ok (Some ast) -> raised (invocation_for O P u) = [] ->
  (forall x, In x item_keywords -> ~ In x (ast_aliases ast)) ->
  let means := meaning O (new_initialized O (u_seed u) (u_first_id u)) (fun ts => ts) ast in
  exists o, nth_error (expand_uses O P Y uses) i = Some o /\
    match o with
    | Code ts => means = Ok ts
    | SyntaxError => False
    | CompileError (SubstitutionError _) => True
    | CompileError e => means = Err e
    | Panicked p => p = PErrorData \/ p = PUnreachable \/ means = Panic p
    end.
Proof.
  intros Hf Hc Hu Hp Hr Hk means. pose proof (use_meaning uses i u ast Hf Hu Hp Hk) as H. cbn zeta in H.
  rewrite Hr in H. rewrite (meaning_ext _ _ (fun ts => ts)) in H; [exact H|]. intros ts. apply quiet_finish, Hc.
Qed.

Lemma use_syntax uses i u : nth_error uses i = Some u ->
  (nth_error (expand_uses O P Y uses) i = Some SyntaxError <-> p_ast (inv_parsed (invocation_for O P u)) = Ok None).
Proof.
  intros H. rewrite (use_output _ _ _ H). unfold outcome. split.
  - destruct (p_ast _) as [[ast|]|e|p]; auto; try discriminate. destruct (execute _ _ _ _ _); discriminate.
  - intros ->. reflexivity.
Qed.

Lemma uses_reported uses : Forall (fun o => match o with
  | Code _ | SyntaxError => True
  | CompileError e => reported O e
  | Panicked p => panicking p
  end) (expand_uses O P Y uses).
Proof.
  eapply Forall_impl; [|apply uses_classes]. intros [ts| |e|p]; auto.
  - intros [->|[->|[(x & ->)|[(f & -> & Hf)|(x & ->)]]]]; constructor. exact Hf.
  - intros [->|[->|[->| ->]]]; constructor.
Qed.

(** The warning. *)
Lemma header_scope seed k n s ast : p_ast (inv_parsed (invocation_of O P seed k n s)) = Ok (Some ast) ->
  p_scope (inv_parsed (invocation_of O P seed k n s)) = Some (uses_semicolons (ast_spec ast)).
Proof.
  destruct s as [ts|ts|attr item]; cbn [inv_parsed invocation_of]; unfold parse_func_macro, parse_attr_macro;
    (destruct (parse_header _ _ _ _) as [[[[loops spec] l] u1]|]; [|discriminate]).
  1, 2: destruct (pre_block _ _) as [[[block j] u2]|]; [|discriminate]; destruct (skipn j (toks l)) as [|t r];
    [|destruct (_ && _); [|discriminate]; destruct r; [|discriminate]]; destruct (u1 || u2); [discriminate| |discriminate|];
    intros H; injection H as <-; reflexivity.
  destruct (skip_separator _ _ _) as [[|t r]|]; try discriminate. destruct u1; [discriminate|].
  destruct (pre_block _ _) as [[[block [|[|j]]] [|]]|]; try discriminate. intros H. injection H as <-. reflexivity.
Qed.
Lemma raised_iff u ast : p_ast (inv_parsed (invocation_for O P u)) = Ok (Some ast) ->
  (exists spec, ast_spec ast = Some spec /\ is_comma_used spec = Some false) /\ raised (invocation_for O P u) = [semicolon_warning] \/
  ~ (exists spec, ast_spec ast = Some spec /\ is_comma_used spec = Some false) /\ raised (invocation_for O P u) = [].
Proof.
  intros H. apply header_scope in H. unfold raised, invocation_for. rewrite H. unfold uses_semicolons.
  destruct (ast_spec ast) as [s|]; [destruct (is_comma_used s) as [[|]|] eqn:E|]; cbn [negb].
  - right. split; [|reflexivity]. intros (s' & Hs & Hc). injection Hs as <-. congruence.
  - left. split; [eauto|reflexivity].
  - right. split; [|reflexivity]. intros (s' & Hs & Hc). injection Hs as <-. congruence.
  - right. split; [|reflexivity]. intros (s' & Hs & Hc). discriminate.
Qed.
End Uses.
