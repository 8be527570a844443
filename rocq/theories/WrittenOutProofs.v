(** Code in which what the aliases stand for is written out. *)
From Coq Require Import String.
From Verif Require Import Base BaseFacts Token Types Values Ast Env Item Interpreter Deprecation Parse Macro SpecSubst SpecElab SpecMacro SpecItem SpecRepro SpecDeprecation SpecRespelled SpecNested SpecOutcome SpecWrittenOut
  ElabFacts LoopAlgebra ReproProofs MacroProofs MeaningProofs OutcomeProofs NestedProofs HeaderUseProofs AlphaOutcomeProofs.
Open Scope list_scope.

Section Code.
Context (O : oracles) (lookup : str -> option value).
Lemma substituted_cons t ts : substituted O lookup (t :: ts) = substituted O lookup [t] ++ substituted O lookup ts.
Proof. unfold substituted, replaced_stream. cbn [flat_map]. rewrite app_nil_r. reflexivity. Qed.
Lemma substituted_app a b : substituted O lookup (a ++ b) = substituted O lookup a ++ substituted O lookup b.
Proof. apply flat_map_app. Qed.
Theorem code_written ts ts' : written_out O lookup ts ts' -> substituted O lookup ts' = substituted O lookup ts.
Proof.
  induction 1 as [|t ts ts' _ IH|d g g' ts ts' _ IHg _ IH|x v ts ts' Hx Hv _ IH]; [reflexivity| | |].
  - rewrite substituted_cons, IH, <- substituted_cons. reflexivity.
  - rewrite substituted_cons, IH, (substituted_cons (TGroup d g)). f_equal. unfold substituted, replaced_stream in *. cbn [flat_map replaced]. rewrite IHg. reflexivity.
  - rewrite substituted_app, Hv, IH, (substituted_cons (TIdent x)). f_equal. unfold substituted, replaced_stream. cbn [flat_map replaced]. unfold tokens_of. rewrite Hx. symmetry. apply app_nil_r.
Qed.
(** Values that mention no alias and hold no string are among them. *)
Lemma plain_tokens ts : (forall x, In (TIdent x) (leaves ts) -> lookup x = None) -> (forall l, In (TLit l) (leaves ts) -> parse_lit_str O [TLit l] = None) -> substituted O lookup ts = ts.
Proof.
  unfold substituted, replaced_stream, leaves. assert (G : forall t, (forall x, In (TIdent x) (leaves1 t) -> lookup x = None) -> (forall l, In (TLit l) (leaves1 t) -> parse_lit_str O [TLit l] = None) ->
    replaced (tokens_of lookup) (literal_of O lookup) t = [t]).
  { induction t as [x|c j|l|d g IH] using tt_ind'; intros H1 H2; cbn [replaced].
    - unfold tokens_of. rewrite (H1 x (or_introl eq_refl)). reflexivity.
    - reflexivity.
    - unfold literal_of. rewrite (H2 l (or_introl eq_refl)). reflexivity.
    - do 2 f_equal. cbn [leaves1] in H1, H2. induction IH as [|t g Ht _ IHg]; [reflexivity|]. cbn [flat_map] in *. rewrite Ht, IHg; [reflexivity| | | |]; intros y Hy; first [apply H1|apply H2]; apply in_app_iff; auto. }
  induction ts as [|t ts IH]; intros H1 H2; [reflexivity|]. cbn [flat_map] in *. rewrite G, IH; [reflexivity| | | |]; intros y Hy; first [apply H1|apply H2]; apply in_app_iff; auto.
Qed.
End Code.

Section Uses.
Context (O : oracles) (P : parsers) (Y : syntax) (Hf : faithful O (reparse Y)).

Lemma same_rounds ast ast' : same_definitions ast ast' -> rounds (erase_ast ast') = rounds (erase_ast ast).
Proof. intros [H1 H2]. unfold rounds, own_items. rewrite H1, H2. reflexivity. Qed.
Lemma round_result reparse env block items c : round_outcome O reparse env block items = Ok c ->
  exists bs, bindings O env items = Ok bs /\ c = substituted O (fun x => assoc_str x bs) (block_tokens (map drop_where_stmt block)).
Proof.
  unfold round_outcome. intros H. apply bind_Ok in H as (bs & Hb & H). exists bs. split; [exact Hb|]. destruct (first_part_failure _ _ _ _) as [[e|p]|]; try discriminate. injection H as <-. reflexivity.
Qed.
Lemma same_scope u u' ast ast' : p_ast (inv_parsed (invocation_for O P u)) = Ok (Some ast) -> p_ast (inv_parsed (invocation_for O P u')) = Ok (Some ast') -> same_definitions ast ast' ->
  raised (invocation_for O P u') = raised (invocation_for O P u).
Proof.
  intros H H' [_ E]. unfold raised, invocation_for in *. rewrite (header_scope O P _ _ _ _ _ H), (header_scope O P _ _ _ _ _ H').
  assert (Es : uses_semicolons (ast_spec ast') = uses_semicolons (ast_spec ast)) by (cbn [erase_ast map_ast ast_spec] in E; destruct (ast_spec ast) as [[l c]|], (ast_spec ast') as [[l' c']|]; try discriminate E; [|reflexivity]; injection E as _ ->; reflexivity).
  rewrite Es. reflexivity.
Qed.
Theorem use_written uses i u ast c uses' j u' ast' c' :
  nth_error uses i = Some u -> p_ast (inv_parsed (invocation_for O P u)) = Ok (Some ast) -> nth_error (expand_uses O P Y uses) i = Some (Code c) ->
  nth_error uses' j = Some u' -> p_ast (inv_parsed (invocation_for O P u')) = Ok (Some ast') -> nth_error (expand_uses O P Y uses') j = Some (Code c') ->
  same_definitions ast ast' -> u_seed u' = u_seed u -> prefix_of (u_source (hd u' uses')) = prefix_of (u_source (hd u uses)) ->
  (forall x, In x item_keywords -> ~ In x (ast_aliases ast)) ->
  (forall items bs, In (Some items) (rounds ast) -> bindings O (new_initialized O (u_seed u) (u_first_id u)) items = Ok bs -> written_out O (fun x => assoc_str x bs) (code ast) (code ast')) ->
  c' = c.
Proof.
  intros Hu Ha Hc Hu' Ha' Hc' Hd Hs Hp Hk Hw.
  assert (Hk' : forall x, In x item_keywords -> ~ In x (ast_aliases ast')).
  { intros x Hx. rewrite <- erased_aliases. intros Hi. apply (Hk x Hx). rewrite <- erased_aliases. destruct Hd as [D1 D2]. revert Hi. unfold ast_aliases, own_items. rewrite D1, D2. exact (fun H => H). }
  rewrite (OutcomeProofs.use_exact O Y P uses i u ast Hf Hu Ha Hk) in Hc. rewrite (OutcomeProofs.use_exact O Y P uses' j u' ast' Hf Hu' Ha' Hk') in Hc'.
  rewrite Hp, (same_scope u u' ast ast' Ha Ha' Hd), Hs, (meaning_erased O (reparse Y) _ (u_first_id u') _ ast') in Hc'. rewrite (meaning_erased O (reparse Y) _ (u_first_id u) _ ast) in Hc.
  revert Hc Hc'. unfold exact_meaning. rewrite (same_rounds _ _ Hd). destruct (all_some (rounds (erase_ast ast))) as [rs|] eqn:Er; [|discriminate].
  change (ast_block (erase_ast ast)) with (ast_block ast). change (ast_block (erase_ast ast')) with (ast_block ast').
  set (finish := with_warnings _ _ _). set (env := new_initialized O (u_seed u) 0).
  destruct (mapM (round_outcome O (reparse Y) env (ast_block ast)) rs) as [codes|e|m] eqn:E1; [|discriminate|discriminate].
  destruct (mapM (round_outcome O (reparse Y) env (ast_block ast')) rs) as [codes'|e|m] eqn:E2; [|discriminate|discriminate]. cbn [bind]. intros Hc Hc'. injection Hc as <-. injection Hc' as <-. do 2 f_equal.
  assert (Hin : forall items bs, In items rs -> bindings O env items = Ok bs -> written_out O (fun x => assoc_str x bs) (code ast) (code ast')).
  { intros items bs Hi Hb. assert (Hi' : In (Some items) (rounds (erase_ast ast))) by (rewrite (NestedProofs.all_some_in _ _ Er); apply in_map, Hi). apply round_erased in Hi' as (its & Hi' & ->). unfold env in Hb. rewrite <- (bindings_erased O (u_seed u) (u_first_id u)) in Hb. exact (Hw its bs Hi' Hb). }
  clear Er Hw Hd Ha Ha' Hk Hk'. revert codes codes' E1 E2. induction rs as [|items rs IH]; intros codes codes' E1 E2; cbn [mapM] in E1, E2; [congruence|].
  apply bind_Ok in E1 as (y & H1 & E1). apply bind_Ok in E1 as (ys & H2 & E1). injection E1 as <-. apply bind_Ok in E2 as (z & H1' & E2). apply bind_Ok in E2 as (zs & H2' & E2). injection E2 as <-.
  apply round_result in H1 as (bs & Hb & ->). apply round_result in H1' as (bs' & Hb' & ->). rewrite Hb in Hb'. injection Hb' as <-. f_equal.
  - exact (code_written O _ _ _ (Hin items bs (or_introl eq_refl) Hb)).
  - apply IH; [intros its b Hi; apply Hin; right; exact Hi|exact H2|exact H2'].
Qed.

(** An attribute on another item. *)
Lemma item_definitions u u' attr item item' ast ast' : u_source u = ComposeItem attr item -> u_source u' = ComposeItem attr item' ->
  p_ast (inv_parsed (invocation_for O P u)) = Ok (Some ast) -> p_ast (inv_parsed (invocation_for O P u')) = Ok (Some ast') -> same_definitions ast ast'.
Proof.
  intros E E' H H'.
  pose proof (attr_macro_same P (known O) (u_next_id u) (u_next_id u') attr item') as S.
  unfold invocation_for, invocation_of in H, H'. rewrite E in H. rewrite E' in H'. cbn [inv_parsed] in H, H'. destruct (same_header _ _ _ S H') as (_ & ast1 & H1 & E1).
  assert (D : ast_loops ast1 = ast_loops ast /\ ast_spec ast1 = ast_spec ast).
  { revert H H1. clear. unfold parse_attr_macro. destruct (parse_header _ _ _ _) as [[[[loops spec] l] u1]|]; [|discriminate]. destruct (skip_separator _ _ _) as [[|t r]|]; try discriminate. destruct u1; [discriminate|].
    destruct (pre_block P [TGroup Brace item]) as [[[block [|[|k]]] [|]]|]; try discriminate. intros H. injection H as <-.
    destruct (pre_block P [TGroup Brace item']) as [[[block' [|[|k]]] [|]]|]; try discriminate. intros H. injection H as <-. split; reflexivity. }
  unfold same_definitions. rewrite <- E1. cbn [erase_ast map_ast ast_loops ast_spec]. destruct D as [-> ->]. split; reflexivity.
Qed.
End Uses.
