(** How the visit of a block ends_as. *)
From Coq Require Import String.
From Verif Require Import Base BaseFacts Token Types Values FormatString StreamWalker SubstituteIdents SpecSubst WalkerProofs SubstFacts
  Ast Env Item AliasSubstitution SpecItem VisitorProofs VisitorTotal SpecElab SpecMacro SpecOutcome Interpreter.
Open Scope list_scope.

Section Outcome.
Context (O : oracles) (lookup : str -> option value) (reparse : kind -> list tt -> option (list tt)).

(** [r] ends_as as [f] says. *)
Definition ends_as {A} (r : res A) (f : option failure) : Prop :=
  match f with None => exists a, r = Ok a | Some (Fails e) => r = Err e | Some (Panics p) => r = Panic p end.
Definition orelse (f g : option failure) : option failure := match f with Some _ => f | None => g end.

Lemma ends_bind {A B} (r : res A) (k : A -> res B) f g : ends_as r f -> (forall a, r = Ok a -> ends_as (k a) g) -> ends_as (bind r k) (orelse f g).
Proof.
  destruct f as [[e|p]|]; cbn [ends_as orelse].
  - intros ->. reflexivity.
  - intros ->. reflexivity.
  - intros (a & ->) H. apply H. reflexivity.
Qed.
Lemma ends_ok {A} (a : A) : ends_as (Ok a) None.
Proof. exists a. reflexivity. Qed.
Lemma ends_map {A B} (r : res A) (k : A -> B) f : ends_as r f -> ends_as (let! a := r in Ok (k a)) f.
Proof. destruct f as [[e|p]|]; cbn [ends_as]; [intros ->; reflexivity..|]. intros (a & ->). eexists; reflexivity. Qed.

Lemma tokens_end {N} (parse : list tt -> option N) acc ts : (forall ts, acc ts = accepted (parse ts)) ->
  ends_as (substitute_idents O lookup parse ts) (tokens_failure O lookup acc ts).
Proof.
  intros Ha. rewrite substitute_idents_spec. unfold tokens_failure. fold (substitution_stages O lookup ts). fold (substituted O lookup ts).
  generalize (@None str). induction (substitution_stages O lookup ts) as [|[name s] l IH]; intros last; cbn [WalkerProofs.check stage_failure].
  - cbn [bind]. rewrite Ha. destruct (parse _); cbn [accepted ends_as]; eauto.
  - rewrite Ha. destruct (parse s) eqn:E; cbn [accepted].
    + apply IH.
    + destruct name as [x|]; [reflexivity|]. destruct last; reflexivity.
Qed.

Notation VN := (visit_node O lookup reparse).
Notation VA := (visit_attrs O lookup reparse).
Notation VX := (visit_name O lookup).
Lemma node_ends k ts : ends_as (VN k ts) (part_failure O lookup reparse (PartNode k ts)).
Proof. apply tokens_end. reflexivity. Qed.
Lemma name_ends x : ends_as (VX x) (part_failure O lookup reparse (PartName x)).
Proof. apply tokens_end. reflexivity. Qed.
Lemma abi_ends l : ends_as (visit_abi O lookup l) (part_failure O lookup reparse (PartAbi (fst l) (snd l))).
Proof. apply tokens_end. reflexivity. Qed.

Lemma attributes_parse ts : attributes_accepted reparse ts = accepted (parse_outer reparse ts).
Proof.
  assert (H : forall n ts, List.length ts <= n -> attributes_accepted reparse ts = accepted (parse_outer reparse ts)).
  { clear ts. induction n as [|n IH]; intros [|t ts] Hn; try reflexivity; [cbn in Hn; lia|].
    destruct t; try reflexivity. destruct ts as [|[x|c' j|l|d m] r]; try reflexivity. destruct d; try reflexivity.
    cbn [attributes_accepted parse_outer]. destruct (N.eqb _ _); [|reflexivity]. cbn [andb].
    destruct (reparse KMeta m); [|reflexivity]. cbn [accepted andb]. rewrite IH by (cbn in Hn; lia). destruct (parse_outer reparse r); reflexivity. }
  eapply H. apply le_n.
Qed.
Lemma attrs_ends l : ends_as (VA l) (part_failure O lookup reparse (PartAttributes l)).
Proof. apply tokens_end. apply attributes_parse. Qed.

Context (F : faithful O reparse).
Lemma other_ends ts : ends_as (visit_other_stmt O lookup reparse ts) (part_failure O lookup reparse (PartStatement ts)).
Proof.
  unfold visit_other_stmt. cbn [part_failure]. destruct (reparse KBlock [TGroup Brace ts]) as [b|] eqn:Eb; [|reflexivity]. cbn [accepted].
  apply (faithful_node _ _ F) in Eb as ->. pose proof (node_ends KBlock [TGroup Brace ts]) as H. cbn [part_failure] in H.
  destruct (VN KBlock [TGroup Brace ts]) as [b| |] eqn:E; cbn [bind].
  - unfold visit_node in E. apply substitutes in E. apply (faithful_node _ _ F) in E. subst b.
    change (substituted O lookup [TGroup Brace ts]) with [TGroup Brace (substituted O lookup ts)].
    destruct (tokens_failure _ _ _ _) as [[]|]; [discriminate H..|]. eexists; reflexivity.
  - destruct (tokens_failure _ _ _ _) as [[]|]; [|discriminate H|destruct H; discriminate]. injection H as ->. reflexivity.
  - destruct (tokens_failure _ _ _ _) as [[]|]; [discriminate H| |destruct H; discriminate]. injection H as ->. reflexivity.
Qed.

End Outcome.

(** The first failure of the parts is that of the whole, however the parts fail. *)
Section Ends.
Context (O : oracles) (lookup : str -> option value) (reparse : kind -> list tt -> option (list tt)).
Context (fails : part -> option failure).
Fixpoint first_of (l : list part) : option failure :=
  match l with
  | [] => None
  | p :: r => match fails p with Some f => Some f | None => first_of r end
  end.
Notation first := first_of.
Notation VN := (visit_node O lookup reparse).
Notation VA := (visit_attrs O lookup reparse).
Notation VX := (visit_name O lookup).
Context (node_ends : forall k ts, ends_as (VN k ts) (fails (PartNode k ts))).
Context (name_ends : forall x, ends_as (VX x) (fails (PartName x))).
Context (abi_ends : forall l, ends_as (visit_abi O lookup l) (fails (PartAbi (fst l) (snd l)))).
Context (attrs_ends : forall l, ends_as (VA l) (fails (PartAttributes l))).
Context (other_ends : forall ts, ends_as (visit_other_stmt O lookup reparse ts) (fails (PartStatement ts))).

Lemma first_app a b : first (a ++ b) = orelse (first a) (first b).
Proof. induction a as [|p a IH]; [reflexivity|]. cbn [app first_of]. destruct (fails p); [reflexivity|exact IH]. Qed.


(** Sequences: the goal is [ends_as (let! a := .. in ..) (first (p :: ..))]. *)
Lemma first_cons p r : first (p :: r) = orelse (fails p) (first r).
Proof. cbn [first_of]. destruct (fails p); reflexivity. Qed.
Lemma step {A B} (r : res A) (k : A -> res B) p l : ends_as r (fails p) ->
  (forall a, ends_as (k a) (first l)) -> ends_as (bind r k) (first (p :: l)).
Proof. intros H1 H2. rewrite first_cons. apply ends_bind; auto. Qed.
Lemma steps {A B} (r : res A) (k : A -> res B) ps l : ends_as r (first ps) -> (forall a, ends_as (k a) (first l)) -> ends_as (bind r k) (first (ps ++ l)).
Proof. intros H1 H2. rewrite first_app. apply ends_bind; auto. Qed.
Lemma last_steps {A B} (r : res A) (k : A -> B) ps : ends_as r (first ps) -> ends_as (let! a := r in Ok (k a)) (first ps).
Proof. apply ends_map. Qed.
Lemma done {A} (a : A) : ends_as (Ok a) (first []).
Proof. apply ends_ok. Qed.
Lemma single {A} (r : res A) p : ends_as r (fails p) -> ends_as r (first [p]).
Proof. intros H. rewrite first_cons. destruct (fails p); exact H. Qed.
Lemma children_end {A} (visit : A -> res A) parts (l : list A) : Forall (fun x => ends_as (visit x) (first (parts x))) l -> ends_as (mapM visit l) (first (flat_map parts l)).
Proof.
  induction 1 as [|x l H _ IH]; [apply done|]. cbn [mapM flat_map]. rewrite first_app. apply ends_bind; [exact H|]. intros y _. apply ends_map. exact IH.
Qed.
Lemma nodes_end k l : ends_as (mapM (VN k) l) (first (map (PartNode k) l)).
Proof.
  replace (map (PartNode k) l) with (flat_map (fun ts => [PartNode k ts]) l) by (induction l; cbn; congruence).
  apply children_end. apply Forall_forall. intros ts _. apply single, node_ends.
Qed.
Lemma opt_end {A B} (f : A -> res A) parts (x : option A) (k : option A -> res B) l :
  (forall a, ends_as (f a) (first (parts a))) -> (forall y, ends_as (k y) (first l)) -> ends_as (let! y := visit_opt f x in k y) (first (optional parts x ++ l)).
Proof.
  intros H1 H2. destruct x as [a|]; cbn [visit_opt optional]; [|cbn [app bind]; apply H2]. apply steps; [|exact H2]. apply ends_map, H1.
Qed.

Lemma field_ends f : ends_as (visit_field O lookup reparse f) (first (field_parts f)).
Proof.
  unfold visit_field, field_parts. cbn [app]. apply step; [apply attrs_ends|intros a]. apply step; [apply node_ends|intros v].
  apply opt_end; [intros x; apply single, name_ends|intros y]. apply step; [apply node_ends|intros t]. apply done.
Qed.
Lemma fields_end l : ends_as (mapM (visit_field O lookup reparse) l) (first (flat_map field_parts l)).
Proof. apply children_end. apply Forall_forall. intros f _. apply field_ends. Qed.
Lemma all_fields_end f : ends_as (visit_fields O lookup reparse f) (first (fields_parts f)).
Proof. destruct f as [l t|l t|]; cbn [visit_fields fields_parts]; [apply ends_map, fields_end..|apply done]. Qed.
Lemma variant_ends v : ends_as (visit_variant O lookup reparse v) (first (variant_parts v)).
Proof.
  unfold visit_variant, variant_parts. cbn [app]. apply step; [apply attrs_ends|intros a]. apply step; [apply name_ends|intros x].
  apply steps; [apply all_fields_end|intros f]. rewrite <- (app_nil_r (optional _ _)). apply opt_end; [intros e; apply single, node_ends|intros d]. apply done.
Qed.
Lemma generics_end {B} g (k : generics -> res B) l : (forall g, ends_as (k g) (first l)) ->
  ends_as (let! g' := visit_generics O lookup reparse g in k g') (first (PartNode KGenerics (g_params g) :: l)).
Proof. intros H. apply step; [|exact H]. unfold visit_generics. apply ends_map, node_ends. Qed.

Definition EI (i : item) := ends_as (visit_item O lookup reparse i) (first (item_parts i)).
Definition ES (s : stmt) := ends_as (visit_stmt O lookup reparse s) (first (stmt_parts s)).
Definition ET (i : trait_item) := ends_as (visit_trait_item O lookup reparse i) (first (trait_item_parts i)).
Definition EM (i : impl_item) := ends_as (visit_impl_item O lookup reparse i) (first (impl_item_parts i)).

Ltac attrs := apply step; [apply attrs_ends|intros ?].
Ltac node := apply step; [apply node_ends|intros ?].
Ltac name := apply step; [apply name_ends|intros ?].
Ltac gens := apply generics_end; intros ?.
Ltac kids H := apply ends_map, children_end; exact H.

Lemma item_ends i : EI i.
Proof.
  apply (item_ind' EI ES ET EM); unfold EI, ES, ET, EM; clear i.
  - intros a v s b IH. rewrite visit_fn. change (item_parts (IFn a v s b)) with ([PartAttributes a; PartNode KVis v; PartNode KSig s] ++ flat_map stmt_parts b).
    cbn [app]. attrs. node. node. kids IH.
  - intros a v x g f. cbn [visit_item item_parts head_parts app]. attrs. node. name. gens. apply ends_map, all_fields_end.
  - intros a v x g l t. cbn [visit_item item_parts head_parts app]. attrs. node. name. gens. apply ends_map, children_end, Forall_forall. intros w _. apply variant_ends.
  - intros a v x g l t. cbn [visit_item item_parts head_parts app]. attrs. node. name. gens. apply ends_map, fields_end.
  - intros a v u au x g s t l IH. rewrite visit_trait.
    change (item_parts (ITrait a v u au x g s t l)) with (head_parts a v x g ++ map (PartNode KBound) s ++ flat_map trait_item_parts l).
    cbn [head_parts app]. attrs. node. name. gens. apply steps; [apply nodes_end|intros ?]. kids IH.
  - intros a d u g tr ty l IH. rewrite visit_impl.
    change (item_parts (IImpl a d u g tr ty l)) with ([PartAttributes a; PartNode KGenerics (g_params g)] ++ optional (fun p => [PartNode KPath (snd p)]) tr ++ [PartNode KType ty] ++ flat_map impl_item_parts l).
    cbn [app]. attrs. gens. apply opt_end; [intros [bang p]; cbn [fst snd]; apply ends_map, single, node_ends|intros ?]. node. kids IH.
  - intros a v u x l IH. rewrite visit_mod.
    change (item_parts (IMod a v u x (Some l))) with ([PartAttributes a; PartNode KVis v; PartName x] ++ flat_map item_parts l).
    cbn [app]. attrs. node. name. apply ends_map. kids IH.
  - intros a v u x. cbn [visit_item item_parts app]. attrs. node. name. apply done.
  - intros a u abi l. cbn [visit_item item_parts app]. attrs. apply opt_end; [intros s; apply single, abi_ends|intros ?]. apply ends_map, nodes_end.
  - intros ts. cbn [visit_item item_parts]. apply ends_map, single, node_ends.
  - intros i IH. assert (Hd : (exists ts, i = IOther ts) \/ (stmt_parts (SItem i) = item_parts i /\ visit_stmt O lookup reparse (SItem i) = let! i' := visit_item O lookup reparse i in Ok (SItem i')))
      by (destruct i; [right; split; reflexivity ..|left; eauto]).
    destruct Hd as [[ts ->]|[H1 H2]].
    + cbn [visit_stmt stmt_parts]. apply ends_map, single, other_ends.
    + rewrite H1, H2. apply ends_map, IH.
  - intros ts. cbn [visit_stmt stmt_parts]. apply ends_map, single, other_ends.
  - intros a s b IH. rewrite visit_trait_fn.
    change (trait_item_parts (TFn a s (Some b))) with ([PartAttributes a; PartNode KSig s] ++ flat_map stmt_parts b). cbn [app]. attrs. node. apply ends_map. kids IH.
  - intros a s. cbn [visit_trait_item trait_item_parts app]. attrs. node. apply done.
  - intros k ts. cbn [visit_trait_item trait_item_parts]. apply ends_map, single, node_ends.
  - intros a v d s b IH. rewrite visit_impl_fn.
    change (impl_item_parts (MFn a v d s b)) with ([PartAttributes a; PartNode KVis v; PartNode KSig s] ++ flat_map stmt_parts b). cbn [app]. attrs. node. node. kids IH.
  - intros k ts. cbn [visit_impl_item impl_item_parts]. apply ends_map, single, node_ends.
Qed.
Lemma stmt_ends s : ES s.
Proof.
  destruct s as [i|ts]; unfold ES; [|cbn [visit_stmt stmt_parts]; apply ends_map, single, other_ends].
  pose proof (item_ends i) as IH. unfold EI in IH.
  destruct i; try (cbn [visit_stmt]; apply ends_map; exact IH). cbn [visit_stmt stmt_parts]. apply ends_map, single, other_ends.
Qed.
Lemma all_parts_end l : ends_as (visit_block O lookup reparse l) (first (block_parts l)).
Proof. apply children_end. apply Forall_forall. intros s _. apply stmt_ends. Qed.
End Ends.

Lemma block_ends O lookup reparse (F : faithful O reparse) l :
  ends_as (visit_block O lookup reparse l) (first_part_failure O lookup reparse (block_parts l)).
Proof.
  exact (all_parts_end O lookup reparse (part_failure O lookup reparse) (node_ends O lookup reparse) (name_ends O lookup reparse)
    (abi_ends O lookup reparse) (attrs_ends O lookup reparse) (other_ends O lookup reparse F) l).
Qed.

(** ** The whole macro *)
From Verif Require Import Parse Macro MeaningProofs MacroProofs InterpreterProofs ElabProofs Deprecation ParseIds SpecParse SpecDeprecation.

Section Meaning.
Context (O : oracles) (Y : syntax).

Lemma round_exact seed k prefix inv block items (rw : block_rewrite (list stmt)) :
  faithful O (reparse Y) -> with_items block items rw -> NoDup (item_ids items) ->
  (forall x, In x item_keywords -> ~ In x (map fst items)) ->
  execute_block_rewrite O Y (new_initialized O seed k) (thread_for prefix inv) rw =
  let! c := round_outcome O (reparse Y) (new_initialized O seed k) block items in Ok (with_warnings Y prefix (raised inv) c).
Proof.
  intros Hf (Hb & Hi) Hn Hkw. unfold execute_block_rewrite, round_outcome. rewrite <- Hi in Hn.
  rewrite make_substitutions_spec by exact Hn. rewrite Hi.
  destruct (bindings O (new_initialized O seed k) items) as [bs|e|p] eqn:Ebs; cbn [bind]; try reflexivity.
  unfold substitute. pose proof (block_ends O (fun x => assoc_str x bs) (reparse Y) Hf (snd rw)) as Hc. rewrite Hb in *.
  pose proof (block_emit O (fun x => assoc_str x bs) (reparse Y) Hf) as He.
  specialize (He ltac:(intros x Hx; apply assoc_none; rewrite (bindings_names _ _ _ _ Ebs); auto)).
  destruct (first_part_failure _ _ _ _) as [[e|p]|]; cbn [ends_as ends_with] in *.
  - rewrite Hc. reflexivity.
  - rewrite Hc. reflexivity.
  - destruct Hc as (b & Hc). rewrite Hc. cbn [bind]. f_equal. unfold with_warnings. cbn [scope_emit thread_for]. rewrite (He _ _ Hc). reflexivity.
Qed.

Lemma rounds_exact seed k prefix inv block rs rws :
  Forall2 (fun items rw => execute_block_rewrite O Y (new_initialized O seed k) (thread_for prefix inv) rw =
     let! c := round_outcome O (reparse Y) (new_initialized O seed k) block items in Ok (with_warnings Y prefix (raised inv) c)) rs rws ->
  (let! outs := mapM (execute_block_rewrite O Y (new_initialized O seed k) (thread_for prefix inv)) rws in Ok (concat outs)) =
  let! codes := mapM (round_outcome O (reparse Y) (new_initialized O seed k) block) rs in Ok (concat (map (with_warnings Y prefix (raised inv)) codes)).
Proof.
  intros H. set (f := execute_block_rewrite _ _ _ _) in *. set (g := round_outcome _ _ _ _) in *. set (w := with_warnings _ _ _) in *.
  assert (G : mapM f rws = let! codes := mapM g rs in Ok (map w codes)).
  { induction H as [|items rw rs rws Ha HF IH]; [reflexivity|]. cbn [mapM]. rewrite Ha. destruct (g items); cbn [bind]; try reflexivity.
    rewrite IH. destruct (mapM g rs); reflexivity. }
  rewrite G. destruct (mapM g rs); reflexivity.
Qed.

Context (P : parsers).
Lemma execute_exact seed k n s ast prefix : let inv := invocation_of O P seed k n s in
  faithful O (reparse Y) -> p_ast (inv_parsed inv) = Ok (Some ast) ->
  (forall x, In x item_keywords -> ~ In x (ast_aliases ast)) ->
  execute O Y (new_initialized O seed k) (thread_for prefix inv) ast =
  exact_meaning O (reparse Y) (new_initialized O seed k) (with_warnings Y prefix (raised inv)) ast.
Proof.
  intros inv Hf Hp Hkw. unfold execute, exact_meaning. pose proof (expand_rounds ast) as Hx.
  destruct (all_some (rounds ast)) as [rs|] eqn:Er; [|rewrite Hx; reflexivity].
  destruct Hx as (rws & Hx & HF). rewrite Hx. cbn [bind]. apply rounds_exact.
  apply Forall2_in in HF. eapply Forall2_weaken; [|exact HF]. intros items rw (Hi1 & Hi2 & Hb & Hi).
  destruct (source_rewrite O P _ _ _ _ _ _ _ Hp Hx Hi2) as (Hn & _).
  rewrite Hi in Hn. apply round_exact; auto; [split; auto|].
  intros x Hx1 Hx2. apply (Hkw x Hx1). eapply round_aliases; [exact Er|exact Hi1|exact Hx2].
Qed.

Lemma use_exact uses i u ast : faithful O (reparse Y) -> nth_error uses i = Some u ->
  p_ast (inv_parsed (invocation_for O P u)) = Ok (Some ast) ->
  (forall x, In x item_keywords -> ~ In x (ast_aliases ast)) ->
  nth_error (expand_uses O P Y uses) i = Some
    match exact_meaning O (reparse Y) (new_initialized O (u_seed u) (u_first_id u))
            (with_warnings Y (prefix_of (u_source (hd u uses))) (raised (invocation_for O P u))) ast with
    | Ok ts => Code ts | Err e => CompileError e | Panic p => Panicked p
    end.
Proof.
  intros Hf Hu Hp Hk. rewrite (use_output O P Y uses i u Hu). f_equal. unfold InterpreterProofs.outcome. rewrite Hp.
  pose proof (execute_exact (u_seed u) (u_first_id u) (u_next_id u) (u_source u) ast (prefix_of (u_source (hd u uses))) Hf Hp Hk) as H.
  cbn zeta in H. unfold invocation_for in *. cbn [inv_seed inv_first_id invocation_of] in *. rewrite H. reflexivity.
Qed.

(** Where both are code, it is the same. *)
Lemma exact_meaning_ok env finish ast ts : exact_meaning O (reparse Y) env finish ast = Ok ts -> meaning O env finish ast = Ok ts.
Proof.
  unfold exact_meaning, meaning. destruct (all_some (rounds ast)) as [rs|]; [|discriminate].
  assert (G : forall codes, mapM (round_outcome O (reparse Y) env (ast_block ast)) rs = Ok codes -> mapM (round_code O env (ast_block ast)) rs = Ok codes).
  { induction rs as [|r rs IH]; intros codes H; [exact H|]. cbn [mapM] in *. unfold round_outcome at 1 in H. unfold round_code at 1.
    destruct (bindings O env r) as [bs| |]; try discriminate. cbn [bind] in *. destruct (first_part_failure _ _ _ _) as [[]|]; try discriminate. cbn [ends_with bind] in *.
    destruct (mapM _ rs) as [c| |]; try discriminate. rewrite (IH _ eq_refl). exact H. }
  destruct (mapM _ rs) as [codes| |]; try discriminate. rewrite (G _ eq_refl). auto.
Qed.

Lemma block_succeeds O' lookup reparse' l : faithful O' reparse' ->
  ((exists l', visit_block O' lookup reparse' l = Ok l') <-> Forall (fun p => part_failure O' lookup reparse' p = None) (block_parts l)).
Proof.
  intros Hf. pose proof (block_ends O' lookup reparse' Hf l) as H.
  assert (G : first_part_failure O' lookup reparse' (block_parts l) = None <-> Forall (fun p => part_failure O' lookup reparse' p = None) (block_parts l)).
  { clear H. induction (block_parts l) as [|p r IH]; [split; [constructor|reflexivity]|]. cbn [first_part_failure]. split.
    - destruct (part_failure _ _ _ p) eqn:E; [discriminate|]. intros Hr. constructor; [exact E|]. apply IH in Hr; exact Hr.
    - intros Hr. inversion Hr as [|? ? H1 H2]; subst. rewrite H1. apply IH, H2. }
  rewrite <- G. destruct (first_part_failure _ _ _ _) as [[e|p]|]; cbn [ends_as] in H.
  - rewrite H. split; [intros (? & H'); discriminate H'|discriminate].
  - rewrite H. split; [intros (? & H'); discriminate H'|discriminate].
  - split; auto.
Qed.

(** A part fails as its first stage that is not accepted says. *)
Lemma tokens_fail O' lookup acc ts : tokens_failure O' lookup acc ts = None <->
  acc (substituted O' lookup ts) = true /\ (forall s, In s (substitution_stages O' lookup ts) -> acc (snd s) = true).
Proof.
  unfold tokens_failure. generalize (@None str). induction (substitution_stages O' lookup ts) as [|[name s] l IH]; intros last; cbn [stage_failure].
  - destruct (acc _); split.
    + intros _. split; [reflexivity|]. intros s Hs. contradiction Hs.
    + reflexivity.
    + discriminate.
    + intros [H _]. discriminate H.
  - destruct (acc s) eqn:E.
    + rewrite IH. split; intros [H1 H2]; split; auto.
      * intros s' [<-|Hs]; auto.
      * intros s' Hs. apply H2. right; exact Hs.
    + split; [discriminate|]. intros [_ H]. specialize (H _ (or_introl eq_refl)). cbn [snd] in H. congruence.
Qed.
End Meaning.

(** The concrete parsers print what they read. *)
From Verif Require Import Concrete ConcreteSpecs ConcreteRuns ConcreteParse ItemFacts.
Lemma named_faithful : faithful ascii named_node.
Proof.
  destruct (proj1 (proj2 (proj2 (proj2 every_part_example)))) as [_ H2 H3]. constructor; [|exact H2|exact H3].
  intros k ts ts' H. destruct k; cbn in H; try congruence. destruct ts as [|[] [|[] ?]]; cbn in H; congruence.
Qed.
