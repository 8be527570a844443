(** Proofs about expansions in several threads. *)
From Coq Require Import String.
From Verif Require Import Base BaseFacts Token Types Values Ast Env Item Expand Resolve Eval Deprecation Interpreter Parse Macro UniqueId
  SpecProduct SpecTuple SpecElab SpecPrograms SpecParse SpecDeprecation SpecMacro SpecRepro Threads SpecThreads
  ElabFacts ElabProofs ResolveFacts MacroProofs MeaningProofs InterpreterProofs ParseIds ReproProofs.
From Coq Require Import Sorted.
Open Scope list_scope.

(** ** Ids of overloads *)
Lemma variants_below name vs : forall k, Forall (fun f => (k <= f_id f < k + N.of_nat (List.length vs))%N) (number_variants name k vs).
Proof.
  induction vs as [|[[a o] im] vs IH]; intros k; [constructor|]. cbn [number_variants]. constructor; [cbn; lia|].
  eapply Forall_impl; [|apply (IH (N.succ k))]. cbn [List.length]. intros f. lia.
Qed.
Lemma rows_below rows : forall k, Forall (fun f => (k <= f_id f < k + N.of_nat (List.length (flat_map snd (number_rows k rows))))%N) (flat_map snd (number_rows k rows)).
Proof.
  induction rows as [|[name vs] rows IH]; intros k; [constructor|]. cbn [number_rows flat_map snd]. rewrite app_length.
  assert (Hl : List.length (number_variants name k vs) = List.length vs) by (clear; revert k; induction vs as [|[[a o] im] vs IHv]; intros k; cbn; [reflexivity|]; rewrite IHv; reflexivity).
  apply Forall_app. split.
  - eapply Forall_impl; [|apply variants_below]. intros f. rewrite Hl. lia.
  - eapply Forall_impl; [|apply IH]. intros f. cbn beta. rewrite Hl. lia.
Qed.
Lemma rows_length rows : forall k k', List.length (flat_map snd (number_rows k rows)) = List.length (flat_map snd (number_rows k' rows)).
Proof.
  induction rows as [|[name vs] rows IH]; intros k k'; [reflexivity|]. cbn [number_rows flat_map snd]. rewrite !app_length, (IH _ (k' + N.of_nat (List.length vs))%N). f_equal.
  clear; revert k k'; induction vs as [|[[a o] im] vs IHv]; intros k k'; cbn; [reflexivity|]. f_equal. apply IHv.
Qed.

Lemma renumber_ext f g env : Forall (fun x => f (f_id x) = g (f_id x)) (flat_map snd (e_funcs env)) -> renumber f env = renumber g env.
Proof.
  destruct env as [seed rows]. unfold renumber. cbn [e_seed e_funcs]. intros H. f_equal. induction rows as [|[name fs] rows IH]; [reflexivity|].
  cbn [flat_map snd fst map] in *. apply Forall_app in H as (H1 & H2). rewrite (IH H2). f_equal. f_equal. apply map_ext_in. intros x Hx. rewrite Forall_forall in H1.
  unfold renumber_func. rewrite (H1 x Hx). reflexivity.
Qed.

(** An increasing list of ids extends to an order-preserving map. *)
Definition top (l : list N) : N := fold_right N.max 0%N l.
Definition spread (l : list N) (k : N) : N := nth (N.to_nat k) l (top l + 1 + k)%N.
Lemma top_ge l x : In x l -> (x <= top l)%N.
Proof. induction l as [|y l IH]; [intros []|]. intros [H|H]; cbn; [subst; lia|]. specialize (IH H). unfold top in IH. lia. Qed.
Lemma sorted_nth l : StronglySorted N.lt l -> forall a b da db, (a < b < List.length l)%nat -> (nth a l da < nth b l db)%N.
Proof.
  induction 1 as [|x l Hs IH Hx]; intros a b da db H; [cbn in H; lia|]. destruct a, b; cbn [List.length nth] in *; try lia.
  - rewrite Forall_forall in Hx. apply Hx, nth_In. lia.
  - apply IH. lia.
Qed.
Lemma spread_lt l a b : StronglySorted N.lt l -> (a < b)%N -> (spread l a < spread l b)%N.
Proof.
  intros Hs H. unfold spread. destruct (Nat.lt_ge_cases (N.to_nat b) (List.length l)) as [Hb|Hb].
  - apply sorted_nth; [exact Hs|lia].
  - rewrite (nth_overflow l _ Hb). destruct (Nat.lt_ge_cases (N.to_nat a) (List.length l)) as [Ha|Ha]; [|rewrite nth_overflow by exact Ha; lia].
    pose proof (top_ge l _ (nth_In l (top l + 1 + a)%N Ha)). lia.
Qed.
Lemma spread_order l : StronglySorted N.lt l -> order_preserving (spread l).
Proof.
  intros Hs a b. split; [apply spread_lt, Hs|]. intros H. destruct (N.lt_trichotomy a b) as [|[<-|Hba]]; [assumption|lia|]. apply (spread_lt l) in Hba; [lia|exact Hs].
Qed.

(** ** Node ids *)
Lemma erase_relabel f e : erase (relabel f e) = erase e.
Proof.
  induction e as [id v|id name args raw IH] using expr_ind'; [reflexivity|]. cbn [relabel erase]. f_equal.
  - rewrite map_map. induction IH as [|a l H _ IHl]; [reflexivity|]. cbn [map]. rewrite H, IHl. reflexivity.
  - destruct raw as [[r ts]|]; reflexivity.
Qed.
Lemma map_tuple_value_comp {U V W} (f : V -> W) (g : U -> V) t : map_tuple_value f (map_tuple_value g t) = map_tuple_value (fun x => f (g x)) t.
Proof. induction t as [v|l IH] using tuple_ind'; [reflexivity|]. cbn [map_tuple_value]. f_equal. rewrite map_map. induction IH as [|x l H _ IHl]; [reflexivity|]. cbn [map]. rewrite H, IHl. reflexivity. Qed.
Lemma map_tuple_value_ext {V W} (f g : V -> W) t : (forall v, f v = g v) -> map_tuple_value f t = map_tuple_value g t.
Proof. intros E. induction t as [v|l IH] using tuple_ind'; [cbn; rewrite E; reflexivity|]. cbn [map_tuple_value]. f_equal. induction IH as [|x l H _ IHl]; [reflexivity|]. cbn [map]. rewrite H, IHl. reflexivity. Qed.
Lemma map_ast_comp {B} f g h (a : raw_ast B) : (forall e, f (g e) = h e) -> map_ast f (map_ast g a) = map_ast h a.
Proof.
  intros E. destruct a as [lo sp b]. unfold map_ast. cbn [ast_loops ast_spec ast_block]. f_equal.
  - destruct lo as [ls|]; [|reflexivity]. cbn [option_map]. f_equal. rewrite map_map. apply map_ext. intros [p vs]. unfold map_loop. cbn [loop_pattern loop_values]. f_equal.
    rewrite map_map. apply map_ext. intros [e|t]; cbn [map_source]; [rewrite E; reflexivity|]. unfold map_tuple. rewrite map_map. f_equal. apply map_ext. intros x.
    rewrite map_tuple_value_comp. apply map_tuple_value_ext, E.
  - destruct sp as [[its c]|]; [|reflexivity]. cbn [option_map map_spec spec_items is_comma_used]. unfold map_spec. cbn [spec_items is_comma_used]. f_equal. f_equal. unfold map_items. rewrite map_map. apply map_ext.
    intros [x e]. cbn [fst snd]. rewrite E. reflexivity.
Qed.
Lemma erase_ast_relabel {B} f (a : raw_ast B) : erase_ast (map_ast (relabel f) a) = erase_ast a.
Proof. apply map_ast_comp, erase_relabel. Qed.
Lemma ids_relabel f e : ids (relabel f e) = map f (ids e).
Proof.
  induction e as [id v|id name args raw IH] using expr_ind'; [reflexivity|]. cbn [relabel ids map]. f_equal. rewrite map_app. f_equal.
  - induction IH as [|x l H _ IHl]; [reflexivity|]. cbn [map flat_map]. rewrite map_app, H, IHl. reflexivity.
  - destruct raw as [[r ts]|]; reflexivity.
Qed.

Lemma ast_exprs_map {B} f (a : raw_ast B) : ast_exprs (map_ast f a) = map f (ast_exprs a).
Proof.
  destruct a as [lo sp b]. unfold ast_exprs, map_ast. cbn [ast_loops ast_spec]. rewrite map_app. f_equal.
  - destruct lo as [ls|]; [|reflexivity]. cbn [option_map]. induction ls as [|[p vs] ls IH]; [reflexivity|]. cbn [map flat_map]. rewrite map_app, IH. f_equal.
    unfold loop_exprs, map_loop. cbn [loop_values]. clear. induction vs as [|v vs IH]; [reflexivity|]. cbn [map flat_map]. rewrite map_app, IH. f_equal.
    destruct v as [e|t]; [reflexivity|]. cbn [map_source source_exprs]. unfold map_tuple. clear.
    assert (G : forall x, tuple_exprs (map_tuple_value f x) = map f (tuple_exprs x)).
    { intros x. induction x as [v|l IHl] using tuple_ind'; [reflexivity|]. cbn [map_tuple_value tuple_exprs]. induction IHl as [|y l Hy _ IH2]; [reflexivity|]. cbn [map flat_map]. rewrite map_app, Hy, IH2. reflexivity. }
    induction t as [|x t IH]; [reflexivity|]. cbn [map flat_map]. rewrite map_app, G, IH. reflexivity.
  - destruct sp as [[its c]|]; [|reflexivity]. cbn [option_map map_spec spec_items]. unfold map_items. rewrite !map_map. reflexivity.
Qed.
Lemma ast_ids_map {B} f (a : raw_ast B) : flat_map ids (ast_exprs (map_ast (relabel f) a)) = map f (flat_map ids (ast_exprs a)).
Proof. rewrite ast_exprs_map. induction (ast_exprs a) as [|e l IH]; [reflexivity|]. cbn [map flat_map]. rewrite map_app, ids_relabel, IH. reflexivity. Qed.

Lemma kth_distinct ns l : NoDup ns -> NoDup l -> Forall (fun k => (N.to_nat k < List.length ns)%nat) l -> NoDup (map (kth ns) l).
Proof.
  intros Hn Hl H. induction Hl as [|x l Hx _ IH]; [constructor|]. inversion H as [|? ? H1 H2]; subst. cbn [map]. constructor; [|apply IH, H2].
  intros Hin. apply in_map_iff in Hin as (y & Hy & Hiy). rewrite Forall_forall in H2. apply Hx. unfold kth in Hy.
  assert (N.to_nat y = N.to_nat x) by (apply (proj1 (NoDup_nth ns 0%N) Hn); auto). replace x with y by lia. exact Hiy.
Qed.

(** ** One use *)
Section Use.
Context (O : oracles) (P : parsers) (Y : syntax).

Lemma execute_renumbered env rho t (ast ast' : raw_ast (list stmt)) : order_preserving rho ->
  NoDup (flat_map ids (ast_exprs ast)) -> NoDup (flat_map ids (ast_exprs ast')) -> erase_ast ast = erase_ast ast' ->
  execute O Y (renumber rho env) t ast' = execute O Y env t ast.
Proof.
  intros Ho Hd Hd' He. unfold execute. pose proof (expand_rounds ast) as Hx. pose proof (expand_rounds ast') as Hx'.
  assert (Hro : option_map (map (map_items erase)) (all_some (rounds ast)) = option_map (map (map_items erase)) (all_some (rounds ast'))).
  { rewrite <- !all_some_map, <- !rounds_map. unfold erase_ast in He. rewrite He. reflexivity. }
  assert (Hb : ast_block ast = ast_block ast') by (apply (f_equal ast_block) in He; exact He).
  destruct (all_some (rounds ast)) as [rs|] eqn:Er, (all_some (rounds ast')) as [rs'|] eqn:Er'; try discriminate Hro; [|rewrite Hx, Hx'; reflexivity].
  cbn [option_map] in Hro. assert (Hro' : map (map_items erase) rs = map (map_items erase) rs') by congruence. clear Hro. destruct Hx as (rws & Hx & HF), Hx' as (rws' & Hx' & HF'). rewrite Hx, Hx'. cbn [bind].
  assert (Hm : mapM (execute_block_rewrite O Y (renumber rho env) t) rws' = mapM (execute_block_rewrite O Y env t) rws).
  { assert (D : forall (a : raw_ast (list stmt)) ws rw, expand a = Ok ws -> In rw ws -> NoDup (flat_map ids (ast_exprs a)) -> NoDup (item_ids (spec_items (fst rw)))).
    { intros a ws rw Ha Hin Hn. rewrite item_ids_exprs. eapply part_NoDup; [apply part_flat_map; exact (expand_part _ _ _ Ha Hin)|exact Hn]. }
    assert (HA : Forall (fun rw => NoDup (item_ids (spec_items (fst rw)))) rws) by (apply Forall_forall; intros rw Hin; exact (D _ _ _ Hx Hin Hd)).
    assert (HA' : Forall (fun rw => NoDup (item_ids (spec_items (fst rw)))) rws') by (apply Forall_forall; intros rw Hin; exact (D _ _ _ Hx' Hin Hd')).
    rewrite <- Hb in HF'. clear -Ho Hro' HF HF' HA HA'. revert rs' rws' Hro' HF' HA'. induction HF as [|items rw rs rws (Hb & Hi) HF IH]; intros rs' rws' Hro HF' HA'.
    - destruct rs'; [|discriminate Hro]. inversion HF'; subst. reflexivity.
    - destruct rs' as [|items' rs']; [discriminate Hro|]. inversion HF' as [|? rw' ? rws2 (Hb' & Hi') HF2]; subst. cbn [map] in Hro. injection Hro as H1 H2.
      inversion HA as [|? ? Hn HA1]; subst. inversion HA' as [|? ? Hn' HA1']; subst. cbn [mapM].
      assert (E : execute_block_rewrite O Y (renumber rho env) t rw' = execute_block_rewrite O Y env t rw).
      { unfold execute_block_rewrite. rewrite <- (make_subst_renumber O env rho (fst rw) (fst rw') Ho Hn Hn' H1), Hb, Hb'. reflexivity. }
      rewrite E. destruct (execute_block_rewrite _ _ _ _ rw); try reflexivity. cbn [bind]. rewrite (IH HA1 rs' rws2 H2 HF2 HA1'). reflexivity. }
  rewrite Hm. reflexivity.
Qed.

Lemma drawn_spread seed fs : List.length fs = overloads O -> drawn_environment O seed fs = renumber (spread fs) (new_initialized O seed 0).
Proof.
  intros Hl. unfold drawn_environment. apply renumber_ext. cbn [new_initialized e_funcs]. eapply Forall_impl; [|apply rows_below].
  cbn beta. intros f Hf. unfold kth, spread. apply nth_indep. unfold overloads in Hl. cbn [new_initialized e_funcs] in Hl. rewrite Hl. lia.
Qed.

Lemma compose_core_drawn seed fs ns u t : List.length fs = overloads O -> StronglySorted N.lt fs -> NoDup ns ->
  List.length ns = count_occ Bool.bool_dec (snd u) true -> enough O P u ->
  compose_core_in O Y (drawn_environment O seed fs) (prefix_of (fst u)) (drawn_parse O P ns (fst u)) t =
  compose_core O Y t (invocation_of O P seed 0 0 (fst u)).
Proof.
  destruct u as [s plan]. cbn [fst snd]. intros Hl Hs Hn Hc He. unfold compose_core_in, compose_core. cbn [invocation_of inv_prefix inv_parsed inv_seed inv_first_id].
  unfold enough in He. cbn [fst snd invocation_of inv_parsed] in He. unfold drawn_parse. cbn [invocation_of inv_parsed].
  pose proof (parsed_source O P 0 0 0 s) as Hp. cbn [invocation_of inv_parsed] in Hp.
  set (p := match s with Compose ts | ComposeIdents ts => _ | ComposeItem attr item => _ end) in *. clearbody p.
  destruct (scoped _) as [t2| |]; [|reflexivity|reflexivity]. unfold run_parser. cbn [relabel_parsed p_scope p_ast].
  assert (G : forall t3, match p_ast (relabel_parsed (kth ns) p) with
    | Ok (Some ast) => close t3 (match execute O Y (drawn_environment O seed fs) t3 ast with Ok ts => Code ts | Err e => CompileError e | Panic x => Panicked x end)
    | Ok None => close t3 SyntaxError | Err e => close t3 (CompileError e) | Panic x => close t3 (Panicked x) end =
    match p_ast p with
    | Ok (Some ast) => close t3 (match execute O Y (new_initialized O seed 0) t3 ast with Ok ts => Code ts | Err e => CompileError e | Panic x => Panicked x end)
    | Ok None => close t3 SyntaxError | Err e => close t3 (CompileError e) | Panic x => close t3 (Panicked x) end).
  { intros t3. unfold relabel_parsed. cbn [p_ast]. destruct (p_ast p) as [[ast|]| |] eqn:Ep; [|reflexivity|reflexivity|reflexivity]. cbn [option_map].
    destruct (Hp ast eq_refl) as (Hd & _). rewrite (drawn_spread seed fs Hl).
    rewrite (execute_renumbered (new_initialized O seed 0) (spread fs) t3 ast (map_ast (relabel (kth ns)) ast)); [reflexivity|apply spread_order, Hs|exact Hd| |symmetry; apply erase_ast_relabel].
    rewrite ast_ids_map. apply kth_distinct; [exact Hn|exact Hd|]. rewrite Hc. apply He. reflexivity. }
  destruct (p_scope p) as [sc|]; [|apply G]. destruct (let! t1 := scoped t2 in _) as [t3| |]; [apply G|reflexivity|reflexivity].
Qed.
End Use.

(** ** One thread *)
Local Opaque overloads drawn_environment drawn_parse compose_core_in.

(** [ds] are the ids a program receives until it is at [q]. *)
Inductive feeds : program -> list N -> program -> Prop :=
| feeds_nil p : feeds p [] p
| feeds_cons go d ds q : feeds (go d) ds q -> feeds (Draw go) (d :: ds) q.

(** The ids kept by a plan. *)
Fixpoint keep (plan : list bool) (ds : list N) : list N :=
  match plan, ds with
  | true :: r, d :: ds => d :: keep r ds
  | false :: r, _ :: ds => keep r ds
  | _, _ => []
  end.
Lemma feeds_draw plan : forall got k ds os, feeds (draw plan got k) ds (Return os) ->
  exists a b, ds = a ++ b /\ List.length a = List.length plan /\ feeds (k (got ++ keep plan a)) b (Return os).
Proof.
  induction plan as [|x plan IH]; intros got k ds os H.
  - exists [], ds. cbn [draw] in H. cbn [keep]. rewrite app_nil_r. auto.
  - cbn [draw] in H. inversion H as [|? d ds' ? H']; subst. apply IH in H' as (a & b & -> & Hl & Hf). exists (d :: a), b. cbn [List.length]. split; [reflexivity|]. split; [congruence|].
    destruct x; cbn [keep]; [|exact Hf]. rewrite <- app_assoc in Hf. exact Hf.
Qed.
Lemma keep_all n : forall a, List.length a = n -> keep (repeat true n) a = a.
Proof. induction n as [|n IH]; intros [|x a] H; try discriminate H; [reflexivity|]. cbn [repeat keep]. rewrite IH by (cbn in H; congruence). reflexivity. Qed.
Lemma keep_in plan : forall a x, In x (keep plan a) -> In x a.
Proof. induction plan as [|[|] plan IH]; intros [|y a] x H; try destruct H; cbn [keep] in *; [left; assumption|right; apply IH; assumption|right; apply IH; exact H]. Qed.
Lemma keep_nodup plan : forall a, NoDup a -> NoDup (keep plan a).
Proof.
  induction plan as [|[|] plan IH]; intros [|y a] H; try constructor; inversion H; subst; cbn [keep]; [|apply IH; assumption|apply IH; assumption].
  intros Hin. apply keep_in in Hin. contradiction.
Qed.
Lemma keep_length plan : forall a, List.length a = List.length plan -> List.length (keep plan a) = count_occ Bool.bool_dec plan true.
Proof.
  induction plan as [|x plan IH]; intros [|y a] H; try discriminate H; [reflexivity|]. cbn [List.length] in H. injection H as H. destruct x; cbn [keep count_occ].
  - cbn [List.length]. rewrite (IH a H). reflexivity.
  - apply IH, H.
Qed.

Lemma sorted_app {A} (R : A -> A -> Prop) l1 l2 : StronglySorted R (l1 ++ l2) -> StronglySorted R l1 /\ StronglySorted R l2.
Proof.
  induction l1 as [|x l1 IH]; intros H; [split; [constructor|exact H]|]. inversion H as [|? ? Hs Hx]; subst. apply IH in Hs as (H1 & H2). split; [|exact H2].
  constructor; [exact H1|]. apply Forall_app in Hx as (Hx & _). exact Hx.
Qed.
Lemma sorted_nodup l : StronglySorted N.lt l -> NoDup l.
Proof. induction 1 as [|x l _ IH Hx]; constructor; [|exact IH]. rewrite Forall_forall in Hx. intros Hin. specialize (Hx _ Hin). lia. Qed.

Section Thread.
Context (O : oracles) (P : parsers) (Y : syntax).

(** The first id of every use. *)
Fixpoint seeds_of (us : list planned) (ds : list N) : list N :=
  match us, ds with
  | u :: r, d :: ds => d :: seeds_of r (skipn (overloads O + List.length (snd u)) ds)
  | _, _ => []
  end.
Lemma skipn_in {A} n : forall (l : list A) x, In x (skipn n l) -> In x l.
Proof. induction n as [|n IH]; intros [|y l] x H; try exact H. right. apply IH, H. Qed.
Lemma seeds_in us : forall ds x, In x (seeds_of us ds) -> In x ds.
Proof. induction us as [|u us IH]; intros [|d ds] x H; try destruct H as [H|H]; try destruct H; [left; reflexivity|]. right. eapply skipn_in, IH, H. Qed.
Lemma skipn_sorted n : forall l, StronglySorted N.lt l -> StronglySorted N.lt (skipn n l).
Proof. induction n as [|n IH]; intros [|y l] H; try exact H. inversion H; subst. apply IH. assumption. Qed.
Lemma seeds_sorted us : forall ds, StronglySorted N.lt ds -> StronglySorted N.lt (seeds_of us ds).
Proof.
  induction us as [|u us IH]; intros [|d ds] H; try constructor; inversion H as [|? ? Hs Hd]; subst; [apply IH, skipn_sorted, Hs|].
  apply Forall_forall. intros x Hx. apply seeds_in, skipn_in in Hx. rewrite Forall_forall in Hd. apply Hd, Hx.
Qed.

Lemma uses_feeds us : Forall (enough O P) us -> forall t os ds out, feeds (uses_program O P Y us t os) ds (Return out) -> StronglySorted N.lt ds ->
  List.length (seeds_of us ds) = List.length us /\ out = os ++ snd (Interpreter.run O Y t (map (invocation_for O P) (alone us (seeds_of us ds)))).
Proof.
  induction us as [|u us IH]; intros He t os ds out H Hs.
  - cbn [uses_program] in H. inversion H; subst. cbn. rewrite app_nil_r. auto.
  - inversion He as [|? ? Hu Hr]; subst. cbn [uses_program] in H. unfold use_program in H. inversion H as [|? d ds' ? H']; subst. clear H.
    apply feeds_draw in H' as (fs & b & -> & Hlf & H'). rewrite repeat_length in Hlf. rewrite (keep_all _ _ Hlf) in H'. cbn [app] in H'.
    apply feeds_draw in H' as (ns & b' & -> & Hln & H'). cbn [app] in H'.
    inversion Hs as [|? ? Hs1 _]; subst. apply sorted_app in Hs1 as (Hfs & Hs2). apply sorted_app in Hs2 as (Hns & Hb').
    rewrite (compose_core_drawn O P Y d fs (keep (snd u) ns) u t Hlf Hfs (keep_nodup _ _ (sorted_nodup _ Hns)) (keep_length _ _ Hln) Hu) in H'.
    cbn [seeds_of]. assert (Hk : skipn (overloads O + List.length (snd u)) (fs ++ ns ++ b') = b').
    { rewrite app_assoc. rewrite skipn_app. replace (overloads O + List.length (snd u) - List.length (fs ++ ns)) with 0 by (rewrite app_length; lia).
      rewrite skipn_all2 by (rewrite app_length; lia). reflexivity. }
    rewrite Hk. cbn [alone combine map]. fold (alone us (seeds_of us b')). cbn [Interpreter.run]. unfold invocation_for at 1. cbn [u_source u_seed u_first_id u_next_id fst snd].
    destruct (compose_core O Y t (invocation_of O P d 0 0 (fst u))) as [t' o]. apply (IH Hr) in H' as (Hl & ->); [|exact Hb']. cbn [List.length]. split; [congruence|].
    destruct (Interpreter.run O Y t' _) as [t'' r]. cbn [snd]. rewrite <- app_assoc. reflexivity.
Qed.
End Thread.

(** ** The machine *)
Definition from (c : N) (n : nat) : list N := map (fun k => (c + N.of_nat k)%N) (seq 0 n).
Definition draws_of (i : nat) (log : list (nat * N)) : list N := map snd (filter (fun p => Nat.eqb (fst p) i) log).

Lemma feeds_snoc p ds go d : feeds p ds (Draw go) -> feeds p (ds ++ [d]) (go d).
Proof. intros H. remember (Draw go) as q eqn:E. induction H as [p|go' d' ds q H IH]; [subst; cbn [app]; constructor; constructor|]. cbn [app]. constructor. apply IH, E. Qed.
Lemma replace_same {A} (x : A) l : forall i y, nth_error l i = Some y -> nth_error (replace i x l) i = Some x.
Proof. induction l as [|z l IH]; intros [|i] y H; try discriminate H; [reflexivity|]. cbn. eapply IH, H. Qed.
Lemma replace_other {A} (x : A) l : forall i j, i <> j -> nth_error (replace i x l) j = nth_error l j.
Proof. induction l as [|z l IH]; intros [|i] [|j] H; try reflexivity; [contradiction|]. cbn. apply IH. congruence. Qed.
Lemma replace_length {A} (x : A) l : forall i, List.length (replace i x l) = List.length l.
Proof. induction l as [|z l IH]; intros [|i]; cbn; congruence. Qed.
Lemma draws_snoc i log k d : draws_of i (log ++ [(k, d)]) = draws_of i log ++ (if Nat.eqb k i then [d] else []).
Proof. unfold draws_of. rewrite filter_app, map_app. cbn. destruct (Nat.eqb k i); reflexivity. Qed.

(** What has happened: who received which id. *)
Definition history (c : N) (ps : list program) (m : state) (log : list (nat * N)) : Prop :=
  fst m = (c + N.of_nat (List.length log))%N /\ map snd log = from c (List.length log) /\ List.length (snd m) = List.length ps /\
  forall i p, nth_error ps i = Some p -> exists q, nth_error (snd m) i = Some q /\ feeds p (draws_of i log) q.

Lemma from_snoc c n : from c (S n) = from c n ++ [(c + N.of_nat n)%N].
Proof. unfold from. rewrite seq_S, map_app. reflexivity. Qed.

Lemma step_history c ps m log i : history c ps m log -> (c + N.of_nat (List.length log) + 1 < 2 ^ 64)%N ->
  exists log', history c ps (step m i) log' /\ (List.length log' <= S (List.length log))%nat.
Proof.
  intros H Hb. unfold step. destruct (nth_error (snd m) i) as [[os|go]|] eqn:Ei; try (exists log; split; [exact H|lia]).
  destruct m as [c' qs]. cbn [fst snd] in *. destruct H as (Hc & Hlog & Hl & Hp). cbn [fst snd] in *. unfold next_unique_id.
  exists (log ++ [(i, c')]). rewrite app_length. cbn [List.length]. split; [|lia]. unfold history. cbn [fst snd]. rewrite app_length, replace_length. cbn [List.length].
  replace (List.length log + 1) with (S (List.length log)) by lia. split; [rewrite N.mod_small; lia|]. split; [rewrite map_app, Hlog, from_snoc, <- Hc; reflexivity|]. split; [exact Hl|].
  intros j p Hj. destruct (Hp j p Hj) as (q & Hq & Hf). rewrite draws_snoc. destruct (Nat.eqb_spec i j) as [<-|Hij].
  - rewrite Ei in Hq. injection Hq as <-. exists (go c'). split; [eapply replace_same, Ei|apply feeds_snoc, Hf].
  - exists q. rewrite app_nil_r, replace_other by exact Hij. auto.
Qed.

Lemma machine_history schedule : forall c ps m log, history c ps m log -> (c + N.of_nat (List.length log + List.length schedule) < 2 ^ 64)%N ->
  exists log', history c ps (machine m schedule) log'.
Proof.
  induction schedule as [|i r IH]; intros c ps m log H Hb; [exists log; exact H|]. cbn [List.length] in Hb.
  destruct (step_history c ps m log i H) as (log' & H' & Hl); [lia|]. apply (IH c ps (step m i) log' H'). lia.
Qed.
Lemma history_start c ps : history c ps (c, ps) [].
Proof. unfold history. cbn. rewrite N.add_0_r. repeat split; auto. intros i p H. exists p. split; [exact H|constructor]. Qed.

Lemma from_sorted c n : StronglySorted N.lt (from c n).
Proof.
  unfold from. generalize 0. induction n as [|n IH]; intros k; [constructor|]. cbn [seq map]. constructor; [apply IH|].
  apply Forall_forall. intros x H. apply in_map_iff in H as (y & <- & Hy). apply in_seq in Hy. lia.
Qed.
Lemma draws_sorted i log : StronglySorted N.lt (map snd log) -> StronglySorted N.lt (draws_of i log).
Proof.
  unfold draws_of. induction log as [|[j d] log IH]; intros H; [constructor|]. cbn [map snd] in H. inversion H as [|? ? Hs Hd]; subst. cbn [filter fst].
  destruct (Nat.eqb j i); [|apply IH, Hs]. cbn [map snd]. constructor; [apply IH, Hs|]. apply Forall_forall. intros x Hx. apply in_map_iff in Hx as ([a b] & <- & Hx). apply filter_In in Hx as (Hx & _).
  rewrite Forall_forall in Hd. apply Hd. apply in_map_iff. exists (a, b). auto.
Qed.
Lemma draws_apart i j log x : NoDup (map snd log) -> In x (draws_of i log) -> In x (draws_of j log) -> i = j.
Proof.
  unfold draws_of. intros Hn Hi Hj. apply in_map_iff in Hi as ([a d] & Hd & Hi), Hj as ([b d'] & Hd' & Hj). cbn [snd] in *. subst d d'.
  apply filter_In in Hi as (Hi & Ha), Hj as (Hj & Hb). cbn [fst] in *. apply Nat.eqb_eq in Ha, Hb. subst a b.
  induction log as [|[k y] log IH]; [destruct Hi|]. cbn [map snd] in Hn. inversion Hn as [|? ? Hy Hn']; subst.
  destruct Hi as [Hi|Hi], Hj as [Hj|Hj]; [congruence| | |apply IH; assumption].
  - injection Hi as -> ->. exfalso. apply Hy, in_map_iff. exists (j, x). auto.
  - injection Hj as -> ->. exfalso. apply Hy, in_map_iff. exists (i, x). auto.
Qed.

Section Machine.
Context (O : oracles) (P : parsers) (Y : syntax).
Local Notation programs threads := (map (thread_program O P Y) threads).

Lemma any_schedule c threads schedule : Forall (Forall (enough O P)) threads -> (c + N.of_nat (List.length schedule) < 2 ^ 64)%N ->
  exists seeds, all_distinct seeds /\ (forall i, StronglySorted N.lt (seeds i)) /\
  forall i us os, nth_error threads i = Some us -> nth_error (snd (machine (c, programs threads) schedule)) i = Some (Return os) ->
    List.length (seeds i) = List.length us /\ os = expand_uses O P Y (alone us (seeds i)).
Proof.
  intros He Hb. destruct (machine_history schedule c (programs threads) (c, programs threads) [] (history_start _ _)) as (log & Hc & Hlog & Hl & Hp); [exact Hb|].
  assert (Hs : StronglySorted N.lt (map snd log)) by (rewrite Hlog; apply from_sorted).
  exists (fun i => seeds_of O (nth i threads []) (draws_of i log)). split; [|split].
  - intros i j p q s Hi Hj. assert (Hij : i = j).
    { apply (draws_apart i j log s (sorted_nodup _ Hs)); eapply seeds_in, nth_error_In; eassumption. }
    subst j. split; [reflexivity|]. apply (NoDup_nth_error _) with (1 := sorted_nodup _ (seeds_sorted O (nth i threads []) _ (draws_sorted i log Hs))); [|congruence].
    apply nth_error_Some. congruence.
  - intros i. apply seeds_sorted, draws_sorted, Hs.
  - intros i us os Hi Hq. rewrite (nth_error_nth threads i [] Hi). destruct (Hp i (thread_program O P Y us)) as (q & Hq' & Hf); [rewrite nth_error_map, Hi; reflexivity|].
    rewrite Hq in Hq'. injection Hq' as <-. rewrite Forall_forall in He.
    apply (uses_feeds O P Y us (He _ (nth_error_In _ _ Hi))) in Hf as (Hlen & ->); [|apply draws_sorted, Hs]. split; [exact Hlen|reflexivity].
Qed.

(** Without hashes. *)
Lemma alone_same us : Forall (fun u => no_hashing O P (fst u)) us -> forall l, List.length l = List.length us -> Forall2 (same_use O P) (alone us l) (alone us (map (fun _ => 0%N) us)).
Proof.
  induction 1 as [|u us Hu _ IH]; intros [|s l] Hl; try discriminate Hl; [constructor|]. cbn [List.length] in Hl. injection Hl as Hl. cbn [alone combine map]. constructor; [|apply IH, Hl].
  split; [reflexivity|right]. cbn [u_source]. exact Hu.
Qed.
Lemma without_hashes c threads schedule i us os : Forall (Forall (enough O P)) threads -> (c + N.of_nat (List.length schedule) < 2 ^ 64)%N ->
  nth_error threads i = Some us -> Forall (fun u => no_hashing O P (fst u)) us ->
  nth_error (snd (machine (c, programs threads) schedule)) i = Some (Return os) ->
  os = expand_uses O P Y (map (fun u => {| u_source := fst u; u_seed := 0; u_first_id := 0; u_next_id := 0 |}) us).
Proof.
  intros He Hb Hi Hh Hq. destruct (any_schedule c threads schedule He Hb) as (seeds & _ & _ & Hd). destruct (Hd i us os Hi Hq) as (Hl & ->).
  rewrite (uses_same O P Y _ _ (alone_same us Hh _ Hl)). f_equal. clear. unfold alone. induction us as [|u us IH]; [reflexivity|]. cbn [map combine fst snd]. rewrite IH. reflexivity.
Qed.

(** Where a use runs. *)
Lemma run_nth invs : forall t k inv, nth_error invs k = Some inv ->
  nth_error (snd (Interpreter.run O Y t invs)) k = Some (snd (compose_core O Y (fst (Interpreter.run O Y t (firstn k invs))) inv)).
Proof.
  induction invs as [|x invs IH]; intros t [|k] inv H; try discriminate H; cbn [nth_error] in H; cbn [firstn Interpreter.run].
  - injection H as ->. cbn [fst]. destruct (compose_core O Y t inv) as [t1 o]. destruct (Interpreter.run O Y t1 invs). reflexivity.
  - destruct (compose_core O Y t x) as [t1 o]. specialize (IH t1 k inv H). destruct (Interpreter.run O Y t1 invs) as [t2 os]. cbn [snd nth_error] in *. rewrite IH.
    destruct (Interpreter.run O Y t1 (firstn k invs)) as [t3 os']. reflexivity.
Qed.
Lemma nth_combine {A B} (a : list A) : forall (b : list B) k x, List.length b = List.length a -> nth_error a k = Some x -> exists y, nth_error (combine a b) k = Some (x, y).
Proof.
  induction a as [|z a IH]; intros [|y b] [|k] x Hl H; try discriminate Hl; try discriminate H; cbn [nth_error combine] in *; [injection H as ->; eauto|]. apply IH; [cbn in Hl; congruence|exact H].
Qed.
Lemma any_placement c threads schedule i us os k u : Forall (Forall (enough O P)) threads -> (c + N.of_nat (List.length schedule) < 2 ^ 64)%N ->
  nth_error threads i = Some us -> nth_error (snd (machine (c, programs threads) schedule)) i = Some (Return os) ->
  nth_error us k = Some u -> no_hashing O P (fst u) -> raised (invocation_of O P 0 0 0 (fst u)) = [] ->
  exists o, nth_error os k = Some o /\ expand_uses O P Y [{| u_source := fst u; u_seed := 0; u_first_id := 0; u_next_id := 0 |}] = [o].
Proof.
  intros He Hb Hi Hq Hk Hh Hr. destruct (any_schedule c threads schedule He Hb) as (seeds & _ & _ & Hd). destruct (Hd i us os Hi Hq) as (Hl & ->).
  destruct (nth_combine us (seeds i) k u Hl Hk) as (s & Hs).
  assert (Hn : nth_error (map (invocation_for O P) (alone us (seeds i))) k = Some (invocation_of O P s 0 0 (fst u))) by (unfold alone; rewrite !nth_error_map; unfold planned in *; rewrite Hs; reflexivity).
  unfold expand_uses. exists (snd (compose_core O Y None (invocation_of O P s 0 0 (fst u)))). split.
  - rewrite (run_nth _ None k _ Hn). f_equal. apply (quiet_history O Y _ []). exact Hr.
  - set (v := {| u_source := fst u; u_seed := s; u_first_id := 0; u_next_id := 0 |}).
    change [snd (compose_core O Y None (invocation_of O P s 0 0 (fst u)))] with [snd (compose_core O Y None (invocation_for O P v))].
    transitivity (expand_uses O P Y [v]).
    + apply uses_same. constructor; [|constructor]. split; [reflexivity|right; exact Hh].
    + unfold expand_uses. cbn [map Interpreter.run]. destruct (compose_core O Y None (invocation_for O P v)). reflexivity.
Qed.

(** Nobody waits. *)
Inductive needs : program -> nat -> Prop :=
| needs_return os n : needs (Return os) n
| needs_draw go n : (forall id, needs (go id) n) -> needs (Draw go) (S n).
Lemma needs_plan plan : forall got k n, (forall ids, needs (k ids) n) -> needs (draw plan got k) (List.length plan + n).
Proof. induction plan as [|x plan IH]; intros got k n H; [apply H|]. cbn [draw List.length Nat.add]. constructor. intros id. apply IH, H. Qed.
Lemma needs_uses us : forall t os, needs (uses_program O P Y us t os) (draws O us).
Proof.
  induction us as [|u us IH]; intros t os; [constructor|]. cbn [uses_program draws]. unfold use_program. constructor. intros seed. rewrite <- Nat.add_assoc.
  rewrite <- (repeat_length true (overloads O)) at 2. apply needs_plan. intros fs. apply needs_plan. intros ns. destruct (compose_core_in _ _ _ _ _ t) as [t' o]. apply IH.
Qed.
Lemma step_other m i j : i <> j -> nth_error (snd (step m i)) j = nth_error (snd m) j.
Proof.
  intros H. unfold step. destruct (nth_error (snd m) i) as [[os|go]|]; try reflexivity. unfold next_unique_id. cbn [snd]. apply replace_other, H.
Qed.
Lemma machine_finishes schedule : forall m i p n, nth_error (snd m) i = Some p -> needs p n -> (n <= count_occ Nat.eq_dec schedule i)%nat ->
  exists os, nth_error (snd (machine m schedule)) i = Some (Return os).
Proof.
  induction schedule as [|j r IH]; intros m i p n Hp Hn Hc.
  - cbn in Hc. replace n with 0 in Hn by lia. inversion Hn; subst. exists os. exact Hp.
  - cbn [count_occ] in Hc. change (machine m (j :: r)) with (machine (step m j) r). destruct (Nat.eq_dec j i) as [->|Hji].
    + inversion Hn as [os n'|go n' Hg]; subst.
      * apply (IH (step m i) i (Return os) 0); [|constructor|lia]. unfold step. rewrite Hp. exact Hp.
      * unfold step. rewrite Hp. unfold next_unique_id. apply (IH _ i (go (fst m)) n'); [|apply Hg|lia]. cbn [snd]. eapply replace_same, Hp.
    + apply (IH (step m j) i p n); [rewrite step_other by exact Hji; exact Hp|exact Hn|exact Hc].
Qed.
Lemma all_finish c threads schedule i us : nth_error threads i = Some us -> (draws O us <= count_occ Nat.eq_dec schedule i)%nat ->
  exists os, nth_error (snd (machine (c, programs threads) schedule)) i = Some (Return os).
Proof.
  intros Hi Hc. eapply machine_finishes; [cbn [snd]; rewrite nth_error_map, Hi; reflexivity|apply needs_uses|exact Hc].
Qed.

(** There always is a plan. *)
Lemma some_plan s : exists plan, enough O P (s, plan).
Proof.
  destruct (p_ast (inv_parsed (invocation_of O P 0 0 0 s))) as [[ast|]| |] eqn:E; try (exists []; intros ast' H; cbn [fst] in H; congruence).
  exists (repeat true (S (N.to_nat (top (flat_map ids (ast_exprs ast)))))). intros ast' H. cbn [fst snd] in *. assert (ast' = ast) by congruence. subst ast'.
  rewrite (count_occ_repeat_eq _ _ eq_refl). apply Forall_forall. intros x Hx. apply top_ge in Hx. lia.
Qed.
End Machine.
