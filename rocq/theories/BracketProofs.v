(** Proofs for C98: brackets around a value. *)
From Coq Require Import String Lia.
From Verif Require Import Base BaseFacts Token Types Values Ast Env Eval Expand SubstituteIdents AliasSubstitution Item Deprecation Interpreter Parse Macro
  SpecElab SpecParse SpecDeprecation SpecBrackets TypesProofs ParseProofs SeparatorProofs ElabFacts ElabProofs ExpandProofs InterpreterProofs MacroProofs MeaningProofs SpecSubst SpecMacro WalkerProofs KeywordsProofs SpecRepro SpecGrammar GrammarProofs UnrollAllProofs.
Open Scope list_scope.

Lemma expr_bracket P hf n ts r : expr_at P hf n (TGroup Bracket ts :: r) = parse_value P is_comma n (TGroup Bracket ts :: r).
Proof. unfold expr_at, parse_expr. cbn [map ann]. unfold parse_call. unfold toks. cbn [map a_tok]. fold (toks (map (ann P hf) r)). rewrite toks_ann. reflexivity. Qed.

(** ** What is read *)
Lemma bracket_value P hf n ts r n' e k u : expr_at P hf n (TGroup Bracket ts :: r) = (n', (e, k, u)) -> exists id v, e = EValue id v /\ forall x, v <> VIdent x.
Proof.
  rewrite expr_bracket. intros H. apply value_best in H as [(c & v & id & -> & Ht & _)|(_ & id & tokens & rest & -> & _)]; [|exists id, (VTokens tokens); split; [reflexivity|discriminate]].
  exists id, v. split; [reflexivity|]. inversion Ht; subst; discriminate.
Qed.
Lemma taken_begins t r k (x : list tt) : is_comma t = false -> ends_at is_comma (t :: r) k -> firstn k (t :: r) = x -> exists y, x = t :: y.
Proof.
  intros Ht He <-. destruct k as [|k]; [|eexists; reflexivity]. exfalso. destruct He as [He|(t' & r' & He & Hc)]; cbn [skipn] in He; [discriminate He|].
  injection He as -> ->. congruence.
Qed.
Lemma bracket_begins P hf n ts r n' e k : printing P -> ints_unbracketed P -> expr_at P hf n (TGroup Bracket ts :: r) = (n', (e, k, false)) ->
  exists id v, e = EValue id v /\ begins_with (TGroup Bracket ts) v.
Proof.
  intros (H1 & H2 & H3 & H4) Hi. rewrite expr_bracket. intros H. apply value_best in H as [(c & v & id & -> & Ht & He & _)|(_ & id & tokens & rest & -> & _ & _ & Et & _ & Hr)].
  - exists id, v. split; [reflexivity|]. inversion Ht; subst.
    + rewrite Hi in H. discriminate H.
    + apply H1 in H. destruct (taken_begins (TGroup Bracket ts) _ _ _ eq_refl He H) as (y & E). discriminate E.
    + apply H2 in H. destruct (taken_begins (TGroup Bracket ts) _ _ _ eq_refl He H) as (y & ->). constructor.
    + apply H3 in H. destruct (taken_begins (TGroup Bracket ts) _ _ _ eq_refl He H) as (y & ->). constructor.
    + apply H4 in H. destruct (taken_begins (TGroup Bracket ts) _ _ _ eq_refl He H) as (y & ->). constructor.
  - exists id, (VTokens tokens). split; [reflexivity|]. destruct tokens as [|t tokens]; cbn [app] in Et; [|injection Et as <- _; constructor].
    subst rest. destruct Hr as [Hr|(t & r' & Hr & Hc)]; [discriminate Hr|]. injection Hr as <- _. discriminate Hc.
Qed.

(** ** What is bound *)
Section Bound.
Context (O : oracles) (env : environment) (a : str) (id : N) (v : value) (Hv : forall x, v <> VIdent x).

Lemma not_defined_yet items : forall G tis e, elab_items env G items = Ok tis -> In (a, e) items -> assoc_str a G = None.
Proof.
  induction items as [|[x e0] items IH]; intros G tis e H Hin; [destruct Hin|]. cbn [elab_items] in H. destruct (elab env G e0 None) as [[te c]|]; [|discriminate].
  destruct (assoc_str x G) eqn:Ex; [discriminate|]. destruct Hin as [[= -> ->]|Hin]; [exact Ex|].
  destruct (elab_items env ((x, target_of te) :: G) items) as [r| |] eqn:Er; try discriminate H. apply (IH _ _ _ Er) in Hin. cbn [assoc_str] in Hin.
  match type of Hin with context [str_eqb ?p ?q] => destruct (str_eqb p q) end; [discriminate Hin|exact Hin].
Qed.
Lemma items_bound seed items : forall G ctx tis bs, elab_items env G items = Ok tis -> run_items O seed ctx tis = Ok bs -> In (a, EValue id v) items -> assoc_str a bs = Some v.
Proof.
  assert (Hs : forall G, static_type G v = type_of v) by (intros G; destruct v; try reflexivity; exfalso; eapply Hv; reflexivity).
  induction items as [|[x e0] items IH]; intros G ctx tis bs H Hr Hin; [destruct Hin|]. cbn [elab_items] in H. destruct (elab env G e0 None) as [[te c]|] eqn:Ee; [|discriminate].
  destruct (assoc_str x G) eqn:Ex; [discriminate|]. destruct (elab_items env ((x, target_of te) :: G) items) as [r| |] eqn:Er; try discriminate H. injection H as <-.
  cbn [run_items] in Hr. destruct (run O seed ctx te) as [w| |] eqn:Ew; try discriminate Hr. cbn [bind] in Hr.
  match type of Hr with context [run_items O seed ?g r] => destruct (run_items O seed g r) as [bs'| |] eqn:Eb end; try discriminate Hr. cbn [bind] in Hr. injection Hr as <-. destruct Hin as [[= -> ->]|Hin].
  - cbn [elab] in Ee. rewrite Hs in Ee. destruct (coercion_cost (type_of v) (type_of v)); [|discriminate Ee]. injection Ee as <- <-. cbn [run] in Ew.
    replace (match v with VIdent x => match assoc_str x ctx with Some w => w | None => v end | _ => v end) with v in Ew by (destruct v; try reflexivity; exfalso; eapply Hv; reflexivity).
    rewrite cast_same in Ew. injection Ew as <-. cbn [assoc_str]. rewrite str_eqb_refl. reflexivity.
  - pose proof (not_defined_yet _ _ _ _ Er Hin) as Hn. cbn [assoc_str] in *.
    match type of Hn with context [str_eqb ?p ?q] => destruct (str_eqb p q) eqn:Eq end; [discriminate Hn|]. exact (IH _ _ _ _ Er Eb Hin).
Qed.
Lemma value_bound spec bs : NoDup (item_ids (spec_items spec)) -> make_substitutions O env spec = Ok bs -> In (a, EValue id v) (spec_items spec) -> assoc_str a bs = Some v.
Proof.
  intros Hn. rewrite (make_substitutions_spec O env spec Hn). unfold bindings. intros H Hin. destruct (elab_items env [] (spec_items spec)) as [tis| |] eqn:Et; try discriminate H.
  exact (items_bound _ _ _ _ _ _ Et H Hin).
Qed.
End Bound.

(** ** Names *)
Lemma name_fails O lookup a v : (forall ts x, parse_ident O ts = Some x -> ts = [TIdent x]) -> lookup a = Some v -> (forall x, to_tokens v <> [TIdent x]) ->
  visit_name O lookup a = Err (SubstitutionError a).
Proof.
  intros Hp Hl Hv. unfold visit_name, substitute_idents. cbn. unfold subst_ident. rewrite Hl. cbn. unfold subst_after. cbn. rewrite !app_nil_r.
  assert (E : parse_ident O (to_tokens v) = None) by (destruct (parse_ident O (to_tokens v)) eqn:E; [apply Hp in E; destruct (Hv _ E)|reflexivity]).
  destruct (to_tokens v) as [|t r] eqn:Et; rewrite E; reflexivity.
Qed.
Lemma item_fails O lookup rp a v i : (forall ts x, parse_ident O ts = Some x -> ts = [TIdent x]) -> lookup a = Some v -> (forall x, to_tokens v <> [TIdent x]) ->
  declares a i -> forall i', visit_stmt O lookup rp (SItem i) <> Ok i'.
Proof.
  intros Hp Hl Hv Hd i'. pose proof (name_fails O lookup a v Hp Hl Hv) as E.
  destruct Hd; cbn [visit_stmt visit_item];
    (destruct (visit_attrs O lookup rp _) as [a'| |]; cbn [bind]; [|discriminate|discriminate]);
    (destruct (visit_node O lookup rp KVis _) as [v'| |]; cbn [bind]; [|discriminate|discriminate]);
    rewrite E; discriminate.
Qed.

(** ** Uses *)
Lemma expand_keeps (ast : raw_ast (list stmt)) rws rw spec d : expand ast = Ok rws -> In rw rws -> ast_spec ast = Some spec -> In d (spec_items spec) ->
  In d (spec_items (fst rw)) /\ snd rw = ast_block ast.
Proof.
  destruct (ast_loops ast) as [loops|] eqn:El.
  - rewrite (expand_loops ast loops El). intros H Hin Hs Hd. apply ExpandProofs.mapM_Ok in H. destruct (Forall2_in_r _ _ _ _ H Hin) as (vals & _ & Hr).
    unfold rewrite_for in Hr. destruct (loop_items loops vals) as [items| |]; try discriminate Hr. cbn [bind] in Hr. rewrite Hs in Hr. injection Hr as <-. cbn [fst snd spec_items].
    split; [apply in_or_app; auto|reflexivity].
  - unfold expand. rewrite El. intros H Hin Hs Hd. injection H as <-. destruct Hin as [<-|[]]. rewrite Hs. auto.
Qed.
Section Uses.
Context (O : oracles) (P : parsers) (Y : syntax).
Lemma bracket_declared uses i u ast spec a id v it ts : (forall l x, parse_ident O l = Some x -> l = [TIdent x]) -> nth_error uses i = Some u ->
  p_ast (inv_parsed (invocation_for O P u)) = Ok (Some ast) -> ast_spec ast = Some spec -> In (a, EValue id v) (spec_items spec) ->
  (forall x, v <> VIdent x) -> (forall x, to_tokens v <> [TIdent x]) ->
  In (SItem it) (ast_block ast) -> declares a it -> nth_error (expand_uses O P Y uses) i = Some (Code ts) -> expand ast = Ok [] /\ ts = [].
Proof.
  intros Hp Hu Hast Hs Hin Hv Hn Hb Hd Ho. rewrite (use_output O P Y _ _ _ Hu) in Ho. injection Ho as Ho. apply outcome_code in Ho as (bs & (ast' & rws & Hast' & Hx & HF) & ->).
  rewrite Hast in Hast'. injection Hast' as <-. destruct HF as [|rw b rws bs (bd & Hm & Hvis) _]; [auto|]. exfalso.
  destruct (expand_keeps _ _ rw _ _ Hx (or_introl eq_refl) Hs Hin) as [Hin' Hblock].
  unfold invocation_for in Hast, Hm. destruct (source_rewrite O P _ _ _ _ _ _ rw Hast Hx (or_introl eq_refl)) as [Hnd _].
  pose proof (value_bound O _ a id v Hv _ _ Hnd Hm Hin') as Ha. rewrite Hblock in Hvis. unfold visit_block in Hvis. apply ExpandProofs.mapM_Ok in Hvis.
  apply in_split in Hb as (l1 & l2 & E). rewrite E in Hvis. apply Forall2_app_inv_l in Hvis as (o1 & o2 & _ & Hvis & _). inversion Hvis as [|? s' ? ? Hs' _]; subst.
  exact (item_fails O _ (reparse Y) a v it Hp Ha Hn Hd s' Hs').
Qed.

Lemma rewrite_aliases (ast : raw_ast (list stmt)) rws rw x : expand ast = Ok rws -> In rw rws -> In x (map fst (spec_items (fst rw))) -> In x (ast_aliases ast).
Proof.
  intros Hx Hin Hn. pose proof (expand_rounds ast) as H. destruct (all_some (rounds ast)) as [rs|] eqn:Er; [|congruence].
  destruct H as (rws' & E & HF). rewrite E in Hx. injection Hx as ->. destruct (Forall2_in_r _ _ _ _ HF Hin) as (items & Hi & _ & <-).
  exact (round_aliases _ _ _ _ Er Hi Hn).
Qed.
Lemma qualifiers_stay lookup q : Forall qualifier q -> (forall x, In x fn_qualifiers -> lookup x = None) -> Forall qualifier (replaced_stream (tokens_of lookup) (literal_of O lookup) q).
Proof.
  intros H Hl. unfold replaced_stream. induction H as [|t q Ht _ IH]; [constructor|]. cbn [flat_map]. apply Forall_app. split; [|exact IH].
  destruct Ht as [(w & Hw & ->)|(l & ->)]; cbn [replaced].
  - replace (tokens_of lookup w) with (@None (list tt)) by (unfold tokens_of; rewrite (Hl w Hw); reflexivity). constructor; [left; eauto|constructor].
  - destruct (literal_of O lookup l); (constructor; [right; eauto|constructor]).
Qed.
Lemma fn_fails lookup a v ts r it : fn_is_named Y -> lookup a = Some v -> to_tokens v = TGroup Bracket ts :: r -> (forall x, In x (txt "fn" :: fn_qualifiers) -> lookup x = None) ->
  declares_fn a it -> forall i', visit_stmt O lookup (reparse Y) (SItem it) <> Ok i'.
Proof.
  intros HY Hl Hv Hn Hd i'. destruct Hd as [at_ vis q r' b Hq]. cbn [visit_stmt visit_item].
  destruct (visit_attrs O lookup (reparse Y) at_) as [a'| |]; cbn [bind]; [|discriminate|discriminate].
  destruct (visit_node O lookup (reparse Y) KVis vis) as [v'| |]; cbn [bind]; [|discriminate|discriminate].
  assert (E : forall s, visit_node O lookup (reparse Y) KSig (q ++ TIdent (txt "fn") :: TIdent a :: r') <> Ok s).
  { intros s. unfold visit_node. rewrite substitute_idents_spec. destruct (check _ _ _); cbn [bind]; [|discriminate|discriminate].
    unfold replaced_stream. rewrite flat_map_app. fold (replaced_stream (tokens_of lookup) (literal_of O lookup) q). cbn [flat_map replaced].
    replace (tokens_of lookup (txt "fn")) with (@None (list tt)) by (unfold tokens_of; rewrite (Hn _ (or_introl eq_refl)); reflexivity).
    replace (tokens_of lookup a) with (Some (to_tokens v)) by (unfold tokens_of; rewrite Hl; reflexivity). rewrite Hv. cbn [app].
    rewrite HY by (apply qualifiers_stay; [exact Hq|intros x Hx; apply Hn; right; exact Hx]). discriminate. }
  destruct (visit_node O lookup (reparse Y) KSig _) as [s| |] eqn:Es; cbn [bind]; [|discriminate|discriminate]. destruct (E s). reflexivity.
Qed.
Lemma bracket_fn uses i u ast spec a id v l r it ts : reserves_fn P -> fn_is_named Y -> nth_error uses i = Some u ->
  p_ast (inv_parsed (invocation_for O P u)) = Ok (Some ast) -> ast_spec ast = Some spec -> In (a, EValue id v) (spec_items spec) ->
  (forall x, v <> VIdent x) -> to_tokens v = TGroup Bracket l :: r ->
  In (SItem it) (ast_block ast) -> declares_fn a it -> nth_error (expand_uses O P Y uses) i = Some (Code ts) -> expand ast = Ok [] /\ ts = [].
Proof.
  intros HP HY Hu Hast Hs Hin Hv Hn Hb Hd Ho. rewrite (use_output O P Y _ _ _ Hu) in Ho. injection Ho as Ho. apply outcome_code in Ho as (bs & (ast' & rws & Hast' & Hx & HF) & ->).
  rewrite Hast in Hast'. injection Hast' as <-. destruct HF as [|rw b rws bs (bd & Hm & Hvis) _]; [auto|]. exfalso.
  destruct (expand_keeps _ _ rw _ _ Hx (or_introl eq_refl) Hs Hin) as [Hin' Hblock]. pose proof (aliases_allowed O P u ast Hast) as Hal.
  unfold invocation_for in Hast, Hm. destruct (source_rewrite O P _ _ _ _ _ _ rw Hast Hx (or_introl eq_refl)) as [Hnd _].
  pose proof (value_bound O _ a id v Hv _ _ Hnd Hm Hin') as Ha. rewrite Hblock in Hvis. unfold visit_block in Hvis. apply ExpandProofs.mapM_Ok in Hvis.
  apply in_split in Hb as (l1 & l2 & E). rewrite E in Hvis. apply Forall2_app_inv_l in Hvis as (o1 & o2 & _ & Hvis & _). inversion Hvis as [|? s' ? ? Hs' _]; subst.
  refine (fn_fails _ a v l r it HY Ha Hn _ Hd s' Hs'). intros x Hxq. apply assoc_none. intros Hnm.
  rewrite make_substitutions_spec in Hm by exact Hnd. rewrite (bindings_names O _ _ _ Hm) in Hnm. pose proof (rewrite_aliases _ _ rw x Hx (or_introl eq_refl) Hnm) as K.
  rewrite Forall_forall in Hal. specialize (Hal x K). rewrite (HP x Hxq) in Hal. discriminate Hal.
Qed.
End Uses.

(** ** From the source *)
Section Source.
Context (P : parsers) (hf : str -> bool).

Lemma reads_once ts e k u e' k' u' : reads P hf ts e k u -> reads P hf ts e' k' u' -> e = e' /\ k = k' /\ u = u'.
Proof.
  intros H H'. apply (reads_exactly P hf 0%N) in H as (n & e0 & E & <-). apply (reads_exactly P hf 0%N) in H' as (n' & e0' & E' & <-).
  rewrite E in E'. injection E' as <- <- <- <-. auto.
Qed.
Lemma definition_once ts d u r d' u' r' : definition_at P hf ts d u r -> definition_at P hf ts d' u' r' -> d = d' /\ u = u' /\ r = r'.
Proof.
  intros H H'. destruct H as [x j vs e k u _ H]. inversion H' as [x' j' vs' e' k' u'' _ K]; subst. destruct (reads_once _ _ _ _ _ _ _ H K) as (<- & <- & <-). auto.
Qed.
Lemma defined_ident x vs ts : defined_as P hf x vs ts -> at_ident P ts.
Proof. intros [j H|? ? ? ? ? H _]; [unfold at_ident; eauto|]. destruct H. unfold at_ident. eauto. Qed.
Lemma defined_in x vs ts : defined_as P hf x vs ts -> forall c ds used b rest, definitions_at P hf c ts ds used b rest -> b = false -> exists e k, In (x, e) ds /\ reads P hf vs e k false.
Proof.
  induction 1 as [j Hx|ts d u s r Hd Hr IH]; intros c ds used b rest H Hb.
  - assert (K : exists d l u r, ds = d :: l /\ definition_at P hf (TIdent x :: TPunct 61%N j :: vs) d u r /\ u = false).
    { destruct H as [? d' u' Hd'|? d' u' s' r' Hd' Hs Hn|? d' u' s' r' ds' used' u'' rest' Hd' Hs Hn Hds]; [eauto 8|eauto 8|].
      apply orb_false_iff in Hb as [Hb _]. eauto 8. }
    destruct K as (d & l & u & r & -> & Hd & ->). inversion Hd; subst. exists e, k. split; [left; reflexivity|assumption].
  - destruct H as [? d' u' Hd'|? d' u' s' r' Hd' Hs Hn|? d' u' s' r' ds' used' u'' rest' Hd' Hs Hn Hds];
      destruct (definition_once _ _ _ _ _ _ _ Hd Hd') as (_ & _ & E).
    + discriminate.
    + injection E as <- <-. destruct Hn. eapply defined_ident. exact Hr.
    + injection E as <- <-. apply orb_false_iff in Hb as [_ Hb]. destruct (IH _ _ _ _ _ Hds Hb) as (e & k & Hin & He). exists e, k. split; [right; exact Hin|exact He].
Qed.

Lemma bracket_header ts loops u ts1 x l r lo spec b rest : printing P -> ints_unbracketed P ->
  loops_at P hf ts loops u ts1 -> defined_as P hf x (TGroup Bracket l :: r) ts1 -> header_at P hf ts lo spec b rest -> b = false ->
  exists sp id v, spec = Some sp /\ In (x, EValue id v) (spec_items sp) /\ begins_with (TGroup Bracket l) v.
Proof.
  intros HP HI Hl Hd Hh Hb. destruct Hh as [ts loops' u1 ts1' spec u2 rest Hl' Hs]. apply orb_false_iff in Hb as [_ ->].
  destruct (loops_same P hf _ _ _ _ _ _ _ Hl Hl') as (_ & _ & <-). inversion Hs as [? Hn|? c items used ? ? _ Hds]; subst; [destruct Hn; eapply defined_ident; exact Hd|].
  destruct (defined_in _ _ _ Hd _ _ _ _ _ Hds eq_refl) as (e & k & Hin & He). apply (reads_exactly P hf 0%N) in He as (n' & e0 & E & <-).
  destruct (bracket_begins P hf 0%N l r n' e0 k HP HI E) as (id & v & -> & Hb). eexists _, 0%N, v. split; [reflexivity|]. split; [exact Hin|exact Hb].
Qed.
Lemma erased_in (ast : raw_ast (list stmt)) sp x id v : ast_spec (erase_ast ast) = Some sp -> In (x, EValue id v) (spec_items sp) ->
  exists spec id', ast_spec ast = Some spec /\ In (x, EValue id' v) (spec_items spec).
Proof.
  unfold erase_ast, map_ast. cbn [ast_spec]. destruct (ast_spec ast) as [spec|]; [|discriminate]. intros [= <-] Hin. cbn [spec_items map_spec] in Hin.
  unfold map_items in Hin. apply in_map_iff in Hin as ([y e] & E & Hin). cbn [fst snd] in E. injection E as -> E. destruct e as [id' w|]; [|discriminate]. injection E as _ ->.
  exists spec, id'. auto.
Qed.
End Source.

Lemma bracket_source O P u ast loops w ts1 x l r : printing P -> ints_unbracketed P ->
  p_ast (inv_parsed (invocation_for O P u)) = Ok (Some ast) ->
  loops_at P (known O) (definitions_of (u_source u)) loops w ts1 -> defined_as P (known O) x (TGroup Bracket l :: r) ts1 ->
  exists spec id v, ast_spec ast = Some spec /\ In (x, EValue id v) (spec_items spec) /\ begins_with (TGroup Bracket l) v.
Proof.
  intros HP HI Hast Hl Hd.
  assert (K : exists lo spec rest, header_at P (known O) (definitions_of (u_source u)) lo spec false rest /\ ast_spec (erase_ast ast) = spec).
  { unfold invocation_for, invocation_of in Hast. cbn [inv_parsed] in Hast. destruct (u_source u) as [ts|ts|ts item]; cbn [definitions_of].
    - assert (H : func_input P (known O) ts (erase_ast ast)) by (apply (func_spec P (known O) (u_next_id u)); eauto). inversion H as [? ? ? ? ? Hh _ _ E]. cbn [ast_spec]. eauto.
    - assert (H : func_input P (known O) ts (erase_ast ast)) by (apply (func_spec P (known O) (u_next_id u)); eauto). inversion H as [? ? ? ? ? Hh _ _ E]. cbn [ast_spec]. eauto.
    - assert (H : attr_input P (known O) ts item (erase_ast ast)) by (apply (attr_spec P (known O) (u_next_id u)); eauto). inversion H as [? ? ? ? Hh _ _ E]. cbn [ast_spec]. eauto. }
  destruct K as (lo & spec & rest & Hh & Hs). destruct (bracket_header P (known O) _ _ _ _ _ _ _ _ _ _ _ HP HI Hl Hd Hh eq_refl) as (sp & id & v & -> & Hin & Hb).
  destruct (erased_in ast sp x id v Hs Hin) as (spec & id' & E & Hin'). exists spec, id', v. auto.
Qed.
Lemma begins_no_ident t v : begins_with t v -> (forall x, v <> VIdent x) /\ exists r, to_tokens v = t :: r.
Proof. destruct 1; (split; [discriminate|eexists; reflexivity]). Qed.
Lemma bracket_refused O P Y uses i u ast loops w ts1 x l r it ts : printing P -> ints_unbracketed P ->
  (forall k y, parse_ident O k = Some y -> k = [TIdent y]) -> reserves_fn P -> fn_is_named Y ->
  nth_error uses i = Some u -> p_ast (inv_parsed (invocation_for O P u)) = Ok (Some ast) ->
  loops_at P (known O) (definitions_of (u_source u)) loops w ts1 -> defined_as P (known O) x (TGroup Bracket l :: r) ts1 ->
  In (SItem it) (ast_block ast) -> declares x it \/ declares_fn x it ->
  nth_error (expand_uses O P Y uses) i = Some (Code ts) -> expand ast = Ok [] /\ ts = [].
Proof.
  intros HP HI HO HR HY Hu Hast Hl Hd Hin Hdec Ho. destruct (bracket_source O P u ast _ _ _ _ _ _ HP HI Hast Hl Hd) as (spec & id & v & Hs & Hi & Hb).
  destruct (begins_no_ident _ _ Hb) as (Hv & r' & Hr). destruct Hdec as [Hdec|Hdec].
  - eapply (bracket_declared O P Y uses i u ast spec x id v it ts HO Hu Hast Hs Hi Hv); [intros y; rewrite Hr; discriminate|exact Hin|exact Hdec|exact Ho].
  - eapply (bracket_fn O P Y uses i u ast spec x id v l r' it ts HR HY Hu Hast Hs Hi Hv Hr); [exact Hin|exact Hdec|exact Ho].
Qed.
