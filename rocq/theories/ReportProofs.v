(** Proofs about the compile errors of the macros. *)
From Coq Require Import String Lia.
From Verif Require Import Base BaseFacts Token Types Values Ast Env Item Expand Deprecation Interpreter Parse Macro SpecScope SpecElab SpecParse SpecRepro MacroProofs
  Failures SpanTokens SpanWalker SpanValues SpanEval SpanItem SpanVisitor SpanParse SpanExpand SpanMacro SpecSpans SpanProofs SpecSpanEval SpanEvalProofs
  SpecSpanItem SpecSpanMacro SpanExpandProofs SpanMacroProofs SpecSpanUnroll SpanUnrollProofs SyntaxErrorProofs SpanDress SpanInstance ConcreteEq SpecReports.
Open Scope list_scope.

(** A failure is one of those allowed. *)
Definition fails_as {A} (Q : failure -> span -> Prop) (r : sres A) : Prop :=
  match r with SErr f s => Q f s | SOk _ | SPanic _ => True end.
Lemma fails_bind {A B} Q (r : sres A) (k : A -> sres B) : fails_as Q r -> (forall a, fails_as Q (k a)) -> fails_as Q (sbind r k).
Proof. destruct r; cbn; auto. Qed.
Lemma fails_map {A B} Q (f : A -> sres B) l : Forall (fun a => fails_as Q (f a)) l -> fails_as Q (smapM f l).
Proof.
  induction 1 as [|a l H _ IH]; [exact Logic.I|]. cbn [smapM]. apply fails_bind; [exact H|]. intros b. apply fails_bind; [exact IH|]. intros; exact Logic.I.
Qed.

Lemma occurrence_name salias nl x s ts : In (Some (x, s)) (occurrences salias nl ts) -> In (x, s) (names ts) /\ salias x <> None.
Proof.
  assert (G : forall t, In (Some (x, s)) (occurrences1 salias nl t) -> In (x, s) (names1 t) /\ salias x <> None).
  { induction t as [y z|c j z|l z|d l z IH] using stt_ind'; cbn.
    - destruct (salias y) eqn:E; [|contradiction]. intros [H|[]]. injection H as -> ->. split; [left; reflexivity|congruence].
    - contradiction.
    - destruct (nl l); [|contradiction]. intros [H|[]]. discriminate H.
    - intros H. apply in_flat_map in H as (t & Ht & H). rewrite Forall_forall in IH. destruct (IH _ Ht H) as [H1 H2]. split; [apply in_flat_map; eauto|exact H2]. }
  intros H. apply in_flat_map in H as (t & Ht & H). destruct (G _ H) as [H1 H2]. split; [apply in_flat_map; eauto|exact H2].
Qed.

Section Visit.
Context (O : oracles) (SO : soracles) (SY : ssyntax) (lookup : str -> option value) (bs : scontext) (IN : inherited_names (snodes SY)).
Let salias (x : str) : option (list stt) := option_map sto_tokens (assoc_str x bs).
Let SN := snodes SY.

Section Of.
Context (L : list (str * span)).
Definition said_of (f : failure) (s : span) : Prop :=
  exists x v why, f = FSubstitution x (to_string O (map erase (sto_tokens v))) why /\ assoc_str x bs = Some v /\
    (s = call_site \/ In (x, s) L) /\ refused SO SY why.
Definition lists (l : list (str * span)) : Prop := forall x s, In (x, s) l -> s = call_site \/ In (x, s) L.
Lemma lists_app a b : lists (a ++ b) <-> lists a /\ lists b.
Proof. unfold lists. split; [intros H; split; intros x s Hx; apply H, in_or_app; auto|intros [Ha Hb] x s Hx; apply in_app_or in Hx as [Hx|Hx]; auto]. Qed.
Lemma lists_flat {A} (f : A -> list (str * span)) l : lists (flat_map f l) -> Forall (fun a => lists (f a)) l.
Proof. intros H. apply Forall_forall. intros a Ha x s Hx. apply H. apply in_flat_map. eauto. Qed.

Lemma substitute_said {M} (parse : list stt -> option M) (why : list stt -> str) ts :
  (forall ts', parse ts' = None -> refused SO SY (why ts')) -> lists (names ts) ->
  fails_as said_of (ssubstitute_idents O lookup salias parse why ts).
Proof.
  intros Hw Hl. destruct (ssubstitute_idents _ _ _ _ _ _) as [n|er p|p] eqn:E; try exact Logic.I.
  destruct (span_error_at _ _ _ _ _ _ _ _ E) as (x & Hc & Ho). apply span_error in E as (before & name & s & after & y & _ & _ & Hn & -> & _).
  cbn in Hc. injection Hc as ->. apply occurrence_name in Ho as [Ho Ha]. unfold salias in Ha.
  destruct (assoc_str x bs) as [v|] eqn:Ev; [|destruct (Ha eq_refl)]. exists x, v, (why s). split; [|split; [exact Ev|split; [apply Hl, Ho|apply Hw, Hn]]].
  unfold report, alias_text, salias. rewrite Ev. reflexivity.
Qed.
Lemma substitute_silent {M} (parse : list stt -> option M) (why : list stt -> str) ts : names ts = [] ->
  fails_as said_of (ssubstitute_idents O lookup salias parse why ts).
Proof.
  intros Hl. destruct (ssubstitute_idents _ _ _ _ _ _) as [n|er p|p] eqn:E; try exact Logic.I.
  destruct (span_error_at _ _ _ _ _ _ _ _ E) as (x & _ & Ho). apply occurrence_name in Ho as [Ho _]. rewrite Hl in Ho. destruct Ho.
Qed.

Lemma node_said k ts : lists (names ts) -> fails_as said_of (svisit_node O lookup salias SN k ts).
Proof. apply substitute_said. intros ts' H. exists ts'. left. exists k. auto. Qed.
Lemma name_said x : lists [x] -> fails_as said_of (svisit_name O SO lookup salias x).
Proof. intros H. apply substitute_said; [intros ts' E; exists ts'; auto|]. destruct x. exact H. Qed.
Lemma abi_said x : fails_as said_of (svisit_abi O SO lookup salias x).
Proof. apply substitute_silent. reflexivity. Qed.
Lemma attrs_tokens_names l : names (pattrs_tokens l) = attrs_names l.
Proof.
  unfold pattrs_tokens, attrs_names, names. induction l as [|a l IH]; [reflexivity|]. cbn [flat_map]. rewrite flat_map_app, IH. f_equal.
  unfold pattr_tokens. rewrite !flat_map_app. cbn. destruct (pa_inner a); cbn; rewrite app_nil_r; reflexivity.
Qed.
Lemma attrs_said l : lists (attrs_names l) -> fails_as said_of (svisit_attrs O lookup salias SN l).
Proof. intros H. apply substitute_said; [intros ts' _; exists ts'; auto|]. rewrite attrs_tokens_names. exact H. Qed.
Lemma opt_said {A} (v : A -> sres A) o : (forall a, o = Some a -> fails_as said_of (v a)) -> fails_as said_of (svisit_opt v o).
Proof. intros H. destruct o as [a|]; [|exact Logic.I]. cbn. apply fails_bind; [apply H; reflexivity|]. intros; exact Logic.I. Qed.
Ltac said_step := apply fails_bind; [first [apply attrs_said | apply node_said | apply name_said | idtac]; try assumption|try (intros ?)].
Lemma field_said f : lists (field_names f) -> fails_as said_of (svisit_field O SO lookup salias SN f).
Proof.
  unfold field_names. rewrite !lists_app. intros (Ha & Hv & Hx & Ht). unfold svisit_field. do 2 said_step. said_step.
  { apply opt_said. intros [x c] E. rewrite E in Hx. destruct x as [x s]. unfold svisit_field_name. cbn [fst snd]. said_step. exact Logic.I. }
  said_step. exact Logic.I.
Qed.
Lemma fields_said f : lists (fields_names f) -> fails_as said_of (svisit_fields O SO lookup salias SN f).
Proof.
  destruct f as [l t s|l t s|]; cbn [svisit_fields fields_names]; intros H; [| |exact Logic.I];
    (said_step; [apply fails_map; eapply Forall_impl; [|apply lists_flat, H]; apply field_said|exact Logic.I]).
Qed.
Lemma generics_said g : lists (names (pg_params g)) -> fails_as said_of (svisit_generics O lookup salias SN g).
Proof. intros H. unfold svisit_generics. said_step. exact Logic.I. Qed.
Lemma variant_said v : lists (variant_names v) -> fails_as said_of (svisit_variant O SO lookup salias SN v).
Proof.
  unfold variant_names. rewrite !lists_app. intros (Ha & Hx & Hf & Hd). unfold svisit_variant. do 2 said_step.
  said_step; [apply fields_said, Hf|]. said_step; [|exact Logic.I]. apply opt_said. intros [s e] E. rewrite E in Hd. cbn [snd]. said_step. exact Logic.I.
Qed.
Lemma other_said ts : lists (names ts) -> fails_as said_of (svisit_other_stmt O lookup salias SN ts).
Proof.
  intros H. unfold svisit_other_stmt. destruct (sreparse SN KBlock _) as [block|] eqn:E; [|exact Logic.I].
  said_step.
  - intros x s Hx. destruct (IN _ _ _ _ E Hx) as [->|Hi]; [auto|]. apply H. cbn in Hi. rewrite app_nil_r in Hi. exact Hi.
  - match goal with a : list stt |- _ => destruct a as [|[| | |d g s] [|]]; try exact Logic.I; destruct d; exact Logic.I end.
Qed.
End Of.

Notation vitem := (svisit_item O SO lookup salias SN).
Notation vstmt := (svisit_stmt O SO lookup salias SN).
Section Items.
Context (L : list (str * span)).
Lemma item_stmt_said i : (lists L (item_names i) -> fails_as (said_of L) (vitem i)) -> lists L (item_names i) -> fails_as (said_of L) (vstmt (PSItem i)).
Proof.
  intros H Hi.
  assert (G : fails_as (said_of L) (sbind (vitem i) (fun i' => SOk (PSItem i')))) by (apply fails_bind; [apply H, Hi|intros; exact Logic.I]).
  destruct i; try exact G. cbn [svisit_stmt]. apply fails_bind; [apply other_said; exact Hi|intros; exact Logic.I].
Qed.
Lemma visited_said {A B} (nm : A -> list (str * span)) (v : A -> sres B) l :
  lists L (flat_map nm l) -> Forall (fun a => lists L (nm a) -> fails_as (said_of L) (v a)) l -> fails_as (said_of L) (smapM v l).
Proof.
  intros Hl H. apply fails_map. apply lists_flat in Hl. rewrite Forall_forall in *. auto.
Qed.
Ltac said_step := apply fails_bind; [first [apply attrs_said | apply node_said | apply name_said | apply generics_said | apply fields_said | idtac]; try assumption|try (intros ?)].
Lemma item_said i : lists L (item_names i) -> fails_as (said_of L) (vitem i).
Proof.
  apply (pitem_ind' (fun i => lists L (item_names i) -> fails_as (said_of L) (vitem i)) (fun s => lists L (stmt_names s) -> fails_as (said_of L) (vstmt s))
           (fun i => lists L (trait_item_names i) -> fails_as (said_of L) (svisit_trait_item O SO lookup salias SN i))
           (fun i => lists L (impl_item_names i) -> fails_as (said_of L) (svisit_impl_item O SO lookup salias SN i)));
    clear i; [intros a v s g b H|intros a v k x g f s|intros a v k x g s l t|intros a v k x g s l t|intros a v u au k x g c s t b l H
      |intros a d u k g tr ty s l H|intros a v u k x s l H|intros a v u k x s|intros a u k abi s l|intros ts|intros i H|intros ts
      |intros a s g b H|intros a s g|intros k ts|intros a v d s g b H|intros k ts];
    try (apply item_stmt_said; exact H);
    cbn [svisit_item svisit_stmt svisit_trait_item svisit_impl_item item_names stmt_names trait_item_names impl_item_names]; rewrite ?lists_app.
  - intros (Ha & Hv & Hs & Hb). do 3 said_step. said_step; [eapply visited_said; eassumption|exact Logic.I].
  - intros (Ha & Hv & Hx & Hg & Hf). do 5 said_step. exact Logic.I.
  - intros (Ha & Hv & Hx & Hg & Hl). do 4 said_step. said_step; [|exact Logic.I]. apply fails_map. eapply Forall_impl; [|apply lists_flat, Hl]. intros; apply variant_said; assumption.
  - intros (Ha & Hv & Hx & Hg & Hl). do 4 said_step. said_step; [|exact Logic.I]. apply fails_map. eapply Forall_impl; [|apply lists_flat, Hl]. intros; apply field_said; assumption.
  - intros (Ha & Hv & Hx & Hg & Hs & Hl). do 4 said_step. said_step.
    { apply fails_map. eapply Forall_impl; [|apply lists_flat, Hs]. intros; apply node_said; assumption. }
    said_step; [eapply visited_said; eassumption|exact Logic.I].
  - intros (Ha & Hg & Htr & Hty & Hl). do 2 said_step. said_step.
    { apply opt_said. intros [[o p] fo] E. rewrite E in Htr. cbn [fst snd]. said_step. exact Logic.I. }
    said_step. said_step; [eapply visited_said; eassumption|exact Logic.I].
  - intros (Ha & Hv & Hx & Hl). do 3 said_step. said_step; [|exact Logic.I]. said_step; [eapply visited_said; eassumption|exact Logic.I].
  - intros (Ha & Hv & Hx & _). do 3 said_step. exact Logic.I.
  - intros (Ha & Hl). said_step. said_step; [apply opt_said; intros n _; apply abi_said|]. said_step; [|exact Logic.I].
    apply fails_map. eapply Forall_impl; [|apply lists_flat, Hl]. intros; apply node_said; assumption.
  - intros Hts. said_step. exact Logic.I.
  - intros Hts. said_step; [apply other_said; assumption|exact Logic.I].
  - intros (Ha & Hs & Hb). do 2 said_step. said_step; [|exact Logic.I]. said_step; [eapply visited_said; eassumption|exact Logic.I].
  - intros (Ha & Hs & _). do 2 said_step. exact Logic.I.
  - intros Hts. said_step. exact Logic.I.
  - intros (Ha & Hv & Hs & Hb). do 3 said_step. said_step; [eapply visited_said; eassumption|exact Logic.I].
  - intros Hts. said_step. exact Logic.I.
Qed.
Lemma stmt_said s : lists L (stmt_names s) -> fails_as (said_of L) (vstmt s).
Proof.
  destruct s as [i|ts]; [apply item_stmt_said, item_said|]. intros H. cbn [svisit_stmt]. apply fails_bind; [apply other_said, H|intros; exact Logic.I].
Qed.
End Items.
Lemma block_said l : fails_as (said_of (block_names l)) (svisit_block O SO lookup salias SN l).
Proof.
  apply (visited_said _ stmt_names); [intros x s H; right; exact H|]. apply Forall_forall. intros s _. apply stmt_said.
Qed.
End Visit.

(** ** The macros *)
Section Macro.
Context (O : oracles) (SO : soracles) (SY : ssyntax) (L : spanless O SO) (I : inherited SO) (IN : inherited_names (snodes SY)).

Lemma substitute_report t block bs f s : ssubstitute O SO SY t block bs = SErr f s -> substitution_report O SO SY bs block f s.
Proof.
  unfold ssubstitute. intros E. match type of E with sbind ?r _ = _ => destruct r as [b|f' s'|p] eqn:Eb end; try discriminate E. injection E as -> ->.
  assert (G := block_said O SO SY (fun x => assoc_str x (map (fun b => (fst b, erase_value (snd b))) bs)) bs IN block).
  rewrite Eb in G. exact G.
Qed.
Lemma sequence_fails l f s : sin_sequence l = SErr f s ->
  exists before r after, l = before ++ r :: after /\ Forall (fun r => exists ts, r = SOk ts) before /\ r = SErr f s.
Proof.
  induction l as [|r l IH]; [discriminate|]. cbn. destruct r as [ts|f' s'|p]; cbn [sbind]; [|intros E; injection E as -> ->; exists [], (SErr f s), l; auto|discriminate].
  destruct (sin_sequence l) as [ts'|f' s'|p]; try discriminate. cbn [sbind]. intros E. destruct (IH E) as (before & r & after & -> & Hb & Hr).
  exists (SOk ts :: before), r, after. repeat split; [constructor; eauto|exact Hr].
Qed.
Lemma map_split {A B} (g : A -> B) l before x after : map g l = before ++ x :: after ->
  exists lb y la, l = lb ++ y :: la /\ map g lb = before /\ g y = x.
Proof.
  revert before. induction l as [|a l IH]; intros [|b before] E; try discriminate E; injection E as E1 E2.
  - exists [], a, l. auto.
  - destruct (IH _ E2) as (lb & y & la & -> & <- & <-). exists (a :: lb), y, la. subst. auto.
Qed.
Lemma round_ids ast rs items : NoDup (flat_map ids (ast_exprs (plain_ast (map erase_stmt) ast))) -> has_rounds ast rs -> In items rs ->
  NoDup (item_ids (erase_spec items)).
Proof.
  intros Hnd Hr Hin. destruct (sexpand_rounds SO ast rs Hr) as (rws & E & HF).
  assert (exists rw, In rw rws /\ ss_items (fst rw) = items) as (rw & Hrw & <-).
  { clear E Hr. induction HF as [|r rw rs' rws' (H1 & _) _ IH]; [destruct Hin|]. destruct Hin as [<-|Hin]; [exists rw; split; [left; reflexivity|exact H1]|].
    destruct (IH Hin) as (rw' & H & H'). exists rw'; split; [right; exact H|exact H']. }
  assert (Hx' : expand (plain_ast (map erase_stmt) ast) = Ok (map (plain_rewrite (map erase_stmt)) rws)) by (rewrite <- (expand_erase SO), E; reflexivity).
  assert (Hpart := expand_part _ _ _ Hx' (in_map (plain_rewrite (map erase_stmt)) _ _ Hrw)).
  rewrite item_ids_exprs. eapply part_NoDup; [apply part_flat_map; exact Hpart|exact Hnd].
Qed.
Lemma execute_report seed n t ast f s : NoDup (flat_map ids (ast_exprs (plain_ast (map erase_stmt) ast))) ->
  sexecute O SO SY (new_initialized O seed n) t ast = SErr f s -> macro_report O SO SY (new_initialized O seed n) t ast f s.
Proof.
  intros Hnd E. destruct (rounds_or SO ast) as [(rs & Hr)|(m & s' & Hm)].
  2:{ rewrite (sexecute_misfit O SO SY _ t ast m s' Hm) in E. injection E as <- <-. left. eauto. }
  right. rewrite (sexecute_rounds O SO SY _ t ast rs Hr) in E. apply sequence_fails in E as (before & r & after & El & Hb & ->).
  apply map_split in El as (lb & items & la & -> & <- & Ei). exists lb, items, la. split; [exact Hr|]. split.
  { rewrite Forall_map in Hb. exact Hb. }
  assert (Hn := round_ids ast _ items Hnd Hr (in_elt _ _ _)).
  rewrite <- (round_sexecute O SO SY _ t (sa_block ast) items ({| ss_items := items; ss_comma := Some true |}, sa_block ast) eq_refl eq_refl) in Ei.
  unfold sexecute_block_rewrite in Ei. cbn [fst snd ss_items] in Ei. destruct (smake_substitutions _ _ _ items) as [bs|f' s'|p] eqn:Eb; [| |discriminate].
  - cbn [sbind] in Ei. right. exists bs. split; [reflexivity|]. eapply substitute_report. exact Ei.
  - injection Ei as -> ->. left. apply (smake_substitutions_report O SO seed n L I); assumption.
Qed.
End Macro.

Section Uses.
Context (O : oracles) (SO : soracles) (P : parsers) (SP : sparsers) (SY : ssyntax).

(** What a use comes to, apart from the service of warnings. *)
Definition comes_to (t : thread) (inv : sinvocation) (o : soutput) : Prop :=
  match sp_ast (sinv_parsed inv) with
  | inr ms => o = SSyntaxError ms
  | inl ast => o = match sexecute O SO SY (new_initialized O (sinv_seed inv) (sinv_first_id inv)) t ast with
                   | SOk ts => SCode ts | SErr f s => SCompileError f s | SPanic p => SPanicked p end
  end.
Lemma core_comes t inv : calm t -> calm (fst (scompose_core O SO SY t inv)) /\ exists t', comes_to t' inv (snd (scompose_core O SO SY t inv)).
Proof.
  intros Ht. split; [apply core_calm, Ht|]. destruct inv as [prefix [sc ast] seed first]. unfold scompose_core, comes_to. cbn [sinv_prefix sinv_parsed sinv_seed sinv_first_id sp_scope sp_ast].
  destruct Ht as [->|(q & ->)]; destruct sc as [[|]|]; cbn; (destruct ast as [a|e]; [eexists; reflexivity|exists None; reflexivity]).
Qed.
Lemma run_comes uses : forall t, calm t ->
  Forall2 (fun u o => exists t', comes_to t' (sinvocation_for O P SP u) o) uses (snd (SpanMacro.srun O SO SY t (map (sinvocation_for O P SP) uses))).
Proof.
  induction uses as [|u uses IH]; intros t Ht; [constructor|]. cbn [map SpanMacro.srun].
  destruct (core_comes t (sinvocation_for O P SP u) Ht) as [Hc Hm]. destruct (scompose_core O SO SY t (sinvocation_for O P SP u)) as [t1 o]. cbn [fst snd] in *.
  specialize (IH t1 Hc). destruct (SpanMacro.srun O SO SY t1 _) as [t2 os]. constructor; assumption.
Qed.
Lemma uses_misfit uses : Forall2 (fun u o => forall ast m s, sp_ast (sinv_parsed (sinvocation_for O P SP u)) = inl ast -> has_misfit SO ast m s ->
    o = SCompileError (FType m) s) uses (sexpand_uses O SO P SP SY uses).
Proof.
  unfold sexpand_uses. induction (run_comes uses None (or_introl eq_refl)) as [|u o us os (t & Hc) _ IH]; constructor; [|exact IH].
  intros ast m s E Hm. unfold comes_to in Hc. rewrite E in Hc. rewrite Hc, (sexecute_misfit _ _ _ _ _ _ _ _ Hm). reflexivity.
Qed.

Context (L : spanless O SO) (LP : spanless_parsers P SP) (I : inherited SO) (IN : inherited_names (snodes SY)).
Lemma parsed_ids u ast : sp_ast (sinv_parsed (sinvocation_for O P SP u)) = inl ast -> NoDup (flat_map ids (ast_exprs (plain_ast (map erase_stmt) ast))).
Proof.
  destruct u as [s seed first n]. unfold sinvocation_for, sinvocation_of. cbn [sinv_parsed su_source su_seed su_first_id su_next_id].
  set (p := match s with SCompose ts => _ | SComposeIdents ts => _ | SComposeItem a b => _ end). intros E.
  assert (Hp : p_ast (plain_parsed p) = Ok (Some (plain_ast (map erase_stmt) ast))) by (cbn [plain_parsed p_ast]; rewrite E; reflexivity).
  subst p. rewrite (parsed_erase O P SP LP) in Hp. apply (parsed_source O P seed first n (erase_source s) _ Hp).
Qed.
Lemma uses_report uses : Forall2 (fun u o => forall f s, o = SCompileError f s ->
    exists ast t, sp_ast (sinv_parsed (sinvocation_for O P SP u)) = inl ast /\
      macro_report O SO SY (new_initialized O (su_seed u) (su_first_id u)) t ast f s) uses (sexpand_uses O SO P SP SY uses).
Proof.
  unfold sexpand_uses. induction (run_comes uses None (or_introl eq_refl)) as [|u o us os (t & Hc) _ IH]; constructor; [|exact IH].
  intros f s ->. unfold comes_to in Hc. destruct (sp_ast (sinv_parsed (sinvocation_for O P SP u))) as [ast|ms] eqn:E; [|discriminate Hc].
  exists ast, t. split; [reflexivity|]. apply execute_report; [exact L|exact I|exact IN|exact (parsed_ids u ast E)|].
  change (sinv_seed (sinvocation_for O P SP u)) with (su_seed u) in Hc. change (sinv_first_id (sinvocation_for O P SP u)) with (su_first_id u) in Hc.
  destruct (sexecute _ _ _ _ _ _); [discriminate Hc|injection Hc as -> ->; reflexivity|discriminate Hc].
Qed.
End Uses.

(** The instance. *)
Lemma dressed_inherited_names Y : inherited_names (snodes (dressed_syntax Y)).
Proof.
  intros ts r x s E H. cbn in E. unfold SpanInstance.same_tokens in E. destruct (reparse Y KBlock _) as [q|]; [|discriminate E]. cbn [option_map] in E. injection E as <-.
  match type of H with In _ (names (if ?b then _ else _)) => destruct b end; [right; exact H|left]. clear -H.
  assert (G : forall t, In (x, s) (names1 (SpanInstance.placeless t)) -> s = call_site).
  { induction t as [y|c j|l|d l IH] using tt_ind'; cbn; try contradiction.
    - intros [H'|[]]. injection H' as _ <-. reflexivity.
    - intros H'. rewrite flat_map_concat_map, map_map, <- flat_map_concat_map in H'. apply in_flat_map in H' as (t & Ht & H'). rewrite Forall_forall in IH. eauto. }
  unfold names in H. apply in_flat_map in H as (t & Ht & H). apply in_map_iff in Ht as (t0 & <- & _). exact (G _ H).
Qed.
