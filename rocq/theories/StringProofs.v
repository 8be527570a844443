(** Proofs for C101: strings and identifiers are not taken for each other. *)
From Coq Require Import String Lia.
From Verif Require Import Base BaseFacts Token Types Values Ast Env Eval Expand SubstituteIdents AliasSubstitution Item Deprecation Interpreter Parse Macro
  SpecElab SpecParse SpecDeprecation SpecCalls SpecFunctions SpecPrograms SpecNaming SpecNesting SpecBrackets SpecStrings TypesProofs ElabFacts ElabProofs ExpandProofs InterpreterProofs MacroProofs MeaningProofs
  SpecSubst SpecMacro WalkerProofs KeywordsProofs BracketProofs NestingRuns NestingLaws UnrollAllProofs.
Open Scope list_scope.

(** ** Mixed calls *)
Section Mixed.
Context (O : oracles) (HN : names_print O) (HQ : quotes_end_names O).

Lemma spelled_kind v : spelled O v -> (exists x, v = VIdent x /\ is_name O x) \/ is_string v /\ quoted (text_of O v).
Proof. destruct v; cbn; try tauto; intros H; [left; eauto|right; split; [unfold is_string; eauto|exact H]]. Qed.
Lemma mixed_text vs : Forall (spelled O) vs -> Exists is_string vs ->
  exists l w s, List.concat (map (text_of O) vs) = List.concat l ++ w ++ 34%N :: s /\ Forall (is_name O) l /\ Forall mark w.
Proof.
  induction vs as [|v vs IH]; intros Hs Hx; [inversion Hx|]. inversion Hs as [|? ? Hv Hr]; subst. cbn [map List.concat]. destruct (spelled_kind v Hv) as [(x & -> & Hn)|[_ (w & s & -> & Hw)]].
  - inversion Hx as [? ? Hd|? ? Hd]; subst; [destruct Hd as (? & ? & ?); discriminate|]. destruct (IH Hr Hd) as (l & w & s & -> & Hl & Hw).
    exists (x :: l), w, s. split; [|split; [constructor; assumption|exact Hw]]. unfold text_of. cbn [to_tokens List.concat]. rewrite HN by exact Hn. rewrite <- app_assoc. reflexivity.
  - exists [], w, (s ++ List.concat (map (text_of O) vs)). split; [|split; [constructor|exact Hw]]. cbn [List.concat app]. rewrite <- app_assoc. reflexivity.
Qed.
Lemma string_no_idents vs : Exists is_string vs -> idents_of vs = None.
Proof.
  induction 1 as [v vs (x & p & ->)|v vs _ IH]; [reflexivity|]. cbn [idents_of fold_right]. fold (idents_of vs). rewrite IH. destruct v; reflexivity.
Qed.
Lemma mixed_meaning x vs : Forall (spelled O) (VIdent x :: vs) -> Exists is_string vs -> concat_meaning O (VIdent x :: vs) = Err EvalError.
Proof.
  intros Hs Hx. assert (Hx' : Exists is_string (VIdent x :: vs)) by (right; exact Hx). destruct (mixed_text _ Hs Hx') as (l & w & s & E & Hl & Hw).
  unfold concat_meaning. rewrite (string_no_idents _ Hx'). cbn [strings_of ints_of fold_right].
  assert (Ep : parse_str_ident O (List.concat (map (text_of O) (VIdent x :: vs))) = None) by (rewrite E; exact (HQ l w s Hl Hw)). rewrite Ep. reflexivity.
Qed.
End Mixed.

Section Definitions.
Context (O : oracles) (seed first : N).
Let env := new_initialized O seed first.

Lemma concat_reads raw : reads_source (txt "concat") raw = false. Proof. destruct raw; reflexivity. Qed.

Theorem mixed_definition pre a e es post i raw c G bs vs : names_print O -> quotes_end_names O ->
  let items := pre ++ (a, ECall i (txt "concat") (e :: es) raw) :: post in
  NoDup (item_ids items) -> independent_items [] items = true -> types_after [] pre = Some G ->
  kind G e = Some TyIdent -> Exists (fun d => kind G d = Some TyLitStr) es ->
  denote_items O seed [] pre = Ok bs -> mapM (denote O seed bs) (e :: es) = Ok vs -> Forall (spelled O) vs ->
  make_substitutions O env {| spec_items := items; is_comma_used := c |} = Err (match first_misfit [] items with Some er => er | None => EvalError end).
Proof.
  intros HN HQ items Hnd Hi HG He Hes Hbs Hvs Hs. unfold env. rewrite definitions_mean by assumption. cbn [spec_items].
  destruct (first_misfit [] items) as [er|] eqn:Ef; [reflexivity|]. unfold items. rewrite denote_app, Hbs. cbn [bind denote_items denote]. rewrite concat_reads, Hvs. cbn [bind].
  change (call_meaning O seed (txt "concat") (option_map snd raw) vs) with (concat_meaning O vs).
  destruct (types_after_ok O seed first pre ((a, ECall i (txt "concat") (e :: es) raw) :: post) [] [] G bs (Forall2_nil _) (NoDup_nil _) Hi HG Hbs (proj1 (misfit_names _ _ _ Ef))) as [Hc Hn].
  assert (Hind : forallb (independent G) (e :: es) = true).
  { pose proof (independent_app _ _ _ _ HG Hi) as Hx. cbn [independent_items] in Hx. apply andb_prop in Hx as [Hx _]. cbn [independent] in Hx.
    rewrite concat_reads in Hx. cbn [orb] in Hx. apply andb_prop in Hx as [Hx _]. apply andb_prop in Hx as [Hx _]. exact Hx. }
  assert (Ha : forall d v t, independent G d = true -> kind G d = Some t -> denote O seed bs d = Ok v -> type_of v = t).
  { intros d v t Hd Hk Hv. pose proof (typed_args O seed first G bs [d] [t] [v] Hc Hn) as K. cbn [forallb map mapM] in K. rewrite Hd, Hk, Hv in K. specialize (K eq_refl eq_refl eq_refl).
    injection K as K. exact K. }
  cbn [mapM] in Hvs. destruct (denote O seed bs e) as [v| |] eqn:Ev; try discriminate Hvs. cbn [bind] in Hvs. destruct (mapM (denote O seed bs) es) as [ws| |] eqn:Ews; try discriminate Hvs.
  injection Hvs as <-. cbn [forallb] in Hind. apply andb_prop in Hind as [Hie Hies].
  pose proof (Ha e v TyIdent Hie He Ev) as Hv. destruct v; try discriminate Hv.
  rewrite (mixed_meaning O HN HQ x ws Hs); [reflexivity|].
  clear - Hes Hies Ews Ha. revert ws Ews. induction es as [|d es IH]; intros ws Ews; [inversion Hes|]. cbn [forallb] in Hies. apply andb_prop in Hies as [Hd Hr].
  cbn [mapM] in Ews. destruct (denote O seed bs d) as [v| |] eqn:Ev; try discriminate Ews. cbn [bind] in Ews. destruct (mapM (denote O seed bs) es) as [ws'| |] eqn:E; try discriminate Ews.
  injection Ews as <-. inversion Hes as [? ? Hk|? ? Hk]; subst.
  - left. pose proof (Ha d v TyLitStr Hd Hk Ev) as Hv. destruct v; try discriminate Hv. unfold is_string. eauto.
  - right. exact (IH Hk Hr ws' eq_refl).
Qed.

(** The type of what is bound. *)
Lemma denote_keeps post : forall bs bd x v, denote_items O seed bs post = Ok bd -> assoc_str x bs = Some v -> assoc_str x bd = Some v.
Proof.
  induction post as [|[a e] post IH]; intros bs bd x v H Hx; cbn [denote_items] in H; [injection H as <-; exact Hx|].
  destruct (denote O seed bs e) as [w| |]; try discriminate H. cbn [bind] in H. exact (IH _ _ _ _ H (assoc_kept _ _ _ _ Hx)).
Qed.
Theorem kind_bound pre a e post c G t bd :
  let items := pre ++ (a, e) :: post in
  NoDup (item_ids items) -> independent_items [] items = true -> types_after [] pre = Some G -> kind G e = Some t ->
  make_substitutions O env {| spec_items := items; is_comma_used := c |} = Ok bd -> exists v, assoc_str a bd = Some v /\ type_of v = t.
Proof.
  intros items Hnd Hi HG Hk. unfold env. rewrite definitions_mean by assumption. cbn [spec_items].
  destruct (first_misfit [] items) as [er|] eqn:Ef; [discriminate|]. unfold items. rewrite denote_app. destruct (denote_items O seed [] pre) as [bs| |] eqn:Hbs; try discriminate.
  cbn [bind denote_items]. destruct (denote O seed bs e) as [v| |] eqn:Ev; try discriminate. cbn [bind]. intros Hd.
  destruct (types_after_ok O seed first pre ((a, e) :: post) [] [] G bs (Forall2_nil _) (NoDup_nil _) Hi HG Hbs (proj1 (misfit_names _ _ _ Ef))) as [Hc Hn].
  pose proof (independent_app _ _ _ _ HG Hi) as Hx. cbn [independent_items] in Hx. apply andb_prop in Hx as [Hx _].
  exists v. split.
  - apply (denote_keeps _ _ _ _ _ Hd), assoc_new, assoc_none. rewrite (denote_names O seed _ _ _ Hbs). cbn [map app].
    destruct (misfit_names (pre ++ [(a, e)]) post []) as [K _]; [rewrite <- app_assoc; exact Ef|]. rewrite map_app in K. cbn [map fst] in K. apply NoDup_remove_2 in K. rewrite app_nil_r in K. exact K.
  - pose proof (typed_args O seed first G bs [e] [t] [v] Hc Hn) as K. cbn [forallb map mapM] in K. rewrite Hx, Hk, Ev in K. specialize (K eq_refl eq_refl eq_refl). injection K as K. exact K.
Qed.

(** ** Conversions written out *)
Lemma requoted_means names G bs : (forall x, assoc_str x G <> None -> In x names) -> (forall x, assoc_str x bs <> None -> In x names) ->
  forall e e', requoted O names e e' -> kind G e = kind G e' /\ denote O seed bs e = denote O seed bs e'.
Proof.
  intros HG Hb. induction e as [id v|id name args raw IH] using expr_ind'; intros e' H.
  - inversion H; subst. split; reflexivity.
  - inversion H as [i j k s p raw0 Hl Hp Hn|i j k s raw0 Hp Hn| |? k ? ? args' ? raw' Hargs Hr]; subst.
    + assert (E : assoc_str s G = None) by (destruct (assoc_str s G) eqn:E; [|reflexivity]; destruct Hn; apply HG; rewrite E; discriminate).
      assert (E' : assoc_str s bs = None) by (destruct (assoc_str s bs) eqn:E'; [|reflexivity]; destruct Hn; apply Hb; rewrite E'; discriminate).
      assert (Er : reads_source (txt "to_ident") raw = false) by (destruct raw; reflexivity).
      split.
      * rewrite kind_call, kind_value, Er. cbn [map]. rewrite kind_value. cbn [static_type all_some option_map]. rewrite E. reflexivity.
      * cbn [denote mapM bind lookup_value]. rewrite Er, E'. cbn [bind].
        change (call_meaning O seed (txt "to_ident") (option_map snd raw) [VLitStr s p]) with (match read_tokens O TyIdent [TLit (LStr s p)] with Some w => Ok w | None => Err TypeError end).
        cbn [read_tokens]. rewrite Hl, Hp. reflexivity.
    + assert (E : assoc_str s G = None) by (destruct (assoc_str s G) eqn:E; [|reflexivity]; destruct Hn; apply HG; rewrite E; discriminate).
      assert (E' : assoc_str s bs = None) by (destruct (assoc_str s bs) eqn:E'; [|reflexivity]; destruct Hn; apply Hb; rewrite E'; discriminate).
      assert (Er : reads_source (txt "to_str") raw = false) by (destruct raw; reflexivity).
      split.
      * rewrite kind_call, kind_value, Er. cbn [map]. rewrite kind_value. cbn [static_type all_some option_map]. rewrite E. reflexivity.
      * cbn [denote mapM bind lookup_value]. rewrite Er, E'. cbn [bind].
        change (call_meaning O seed (txt "to_str") (option_map snd raw) [VIdent s]) with (match read_tokens O TyLitStr [TIdent s] with Some w => Ok w | None => Err TypeError end).
        cbn [read_tokens]. rewrite Hp. reflexivity.
    + assert (E : map (kind G) args = map (kind G) args' /\ mapM (denote O seed bs) args = mapM (denote O seed bs) args').
      { clear Hr H. revert args' Hargs. induction IH as [|x args Hx _ IH]; intros args' Hargs; inversion Hargs as [|? b ? args2 H1 H2]; subst; [split; reflexivity|].
        destruct (Hx b H1) as [E1 E2]. destruct (IH args2 H2) as [E3 E4]. cbn [map mapM]. rewrite E1, E2, E3, E4. split; reflexivity. }
      destruct E as [E1 E2]. split.
      * rewrite !kind_call, (reads_source_same name raw raw' Hr), E1. reflexivity.
      * cbn [denote]. rewrite (reads_source_same name raw raw' Hr), E2.
        destruct (reads_source name raw'); [apply meaning_same; exact Hr|]. destruct (mapM (denote O seed bs) args'); [apply meaning_same; exact Hr|reflexivity|reflexivity].
Qed.
Lemma types_names pre : forall G G', types_after G pre = Some G' -> forall x, assoc_str x G' <> None -> assoc_str x G <> None \/ In x (map fst pre).
Proof.
  induction pre as [|[a e] pre IH]; intros G G' H x Hx; cbn [types_after] in H; [injection H as <-; left; exact Hx|].
  destruct (synth G e) as [[t k]|]; [|discriminate]. destruct (IH _ _ H x Hx) as [K|K]; [|right; right; exact K]. cbn [assoc_str] in K.
  destruct (str_eqb x a) eqn:E; [|left; exact K]. apply str_eqb_eq in E as ->. right. left. reflexivity.
Qed.
Theorem requoted_same pre a e e' post c c' : requoted O (map fst pre) e e' ->
  NoDup (item_ids (pre ++ (a, e) :: post)) -> NoDup (item_ids (pre ++ (a, e') :: post)) ->
  independent_items [] (pre ++ (a, e) :: post) = true -> independent_items [] (pre ++ (a, e') :: post) = true ->
  make_substitutions O env {| spec_items := pre ++ (a, e) :: post; is_comma_used := c |} =
  make_substitutions O env {| spec_items := pre ++ (a, e') :: post; is_comma_used := c' |}.
Proof.
  intros H H1 H2 Hi Hi'. apply exchange_meaning; try assumption.
  - intros G HG. assert (Hn : forall x, assoc_str x G <> None -> In x (map fst pre)) by (intros x Hx; destruct (types_names _ _ _ HG x Hx) as [K|K]; [destruct K; reflexivity|exact K]).
    destruct (requoted_means (map fst pre) G [] Hn (fun x K => match K eq_refl with end) e e' H) as [E _]. split; [exact E|]. intros Hk. inversion H; subst; try reflexivity.
    + exfalso. rewrite E in Hk. discriminate Hk.
    + exfalso. rewrite E in Hk. discriminate Hk.
  - intros bs Hbs. refine (proj2 (requoted_means (map fst pre) [] bs (fun x K => match K eq_refl with end) _ e e' H)).
    intros x Hx. pose proof (denote_names O seed _ _ _ Hbs) as E. apply assoc_str_In in Hx. rewrite E in Hx. exact Hx.
Qed.
End Definitions.

(** ** Names of items *)
Section Uses.
Context (O : oracles) (P : parsers) (Y : syntax).
Lemma literal_no_name v : literal_value v -> exists l, to_tokens v = [TLit l].
Proof. destruct 1; eexists; reflexivity. Qed.
Lemma literal_fn lookup a v it : fn_takes_name Y -> lookup a = Some v -> literal_value v -> (forall x, In x (txt "fn" :: fn_qualifiers) -> lookup x = None) ->
  declares_fn a it -> forall i', visit_stmt O lookup (reparse Y) (SItem it) <> Ok i'.
Proof.
  intros HY Hl Hv Hn Hd i'. destruct (literal_no_name v Hv) as [l El]. destruct Hd as [at_ vis q r' b Hq]. cbn [visit_stmt visit_item].
  destruct (visit_attrs O lookup (reparse Y) at_) as [a'| |]; cbn [bind]; [|discriminate|discriminate].
  destruct (visit_node O lookup (reparse Y) KVis vis) as [v'| |]; cbn [bind]; [|discriminate|discriminate].
  assert (E : forall s, visit_node O lookup (reparse Y) KSig (q ++ TIdent (txt "fn") :: TIdent a :: r') <> Ok s).
  { intros s. unfold visit_node. rewrite substitute_idents_spec. destruct (check _ _ _); cbn [bind]; [|discriminate|discriminate].
    unfold replaced_stream. rewrite flat_map_app. fold (replaced_stream (tokens_of lookup) (literal_of O lookup) q). cbn [flat_map replaced].
    replace (tokens_of lookup (txt "fn")) with (@None (list tt)) by (unfold tokens_of; rewrite (Hn _ (or_introl eq_refl)); reflexivity).
    replace (tokens_of lookup a) with (Some (to_tokens v)) by (unfold tokens_of; rewrite Hl; reflexivity). rewrite El. cbn [app].
    rewrite HY by (apply qualifiers_stay; [exact Hq|intros x Hx; apply Hn; right; exact Hx]). discriminate. }
  destruct (visit_node O lookup (reparse Y) KSig _) as [s| |] eqn:Es; cbn [bind]; [|discriminate|discriminate]. destruct (E s). reflexivity.
Qed.

Lemma literal_declared uses i u ast rws rw bd a v it ts : (forall l x, parse_ident O l = Some x -> l = [TIdent x]) -> reserves_fn P -> fn_takes_name Y ->
  nth_error uses i = Some u -> p_ast (inv_parsed (invocation_for O P u)) = Ok (Some ast) -> expand ast = Ok rws -> In rw rws ->
  make_substitutions O (new_initialized O (inv_seed (invocation_for O P u)) (inv_first_id (invocation_for O P u))) (fst rw) = Ok bd -> assoc_str a bd = Some v -> literal_value v ->
  In (SItem it) (ast_block ast) -> declares a it \/ declares_fn a it -> nth_error (expand_uses O P Y uses) i <> Some (Code ts).
Proof.
  intros Hp HP HY Hu Hast Hx Hrw Hm Ha Hv Hb Hd Ho. rewrite (use_output O P Y _ _ _ Hu) in Ho. injection Ho as Ho. apply outcome_code in Ho as (bs & (ast' & rws' & Hast' & Hx' & HF) & ->).
  rewrite Hast in Hast'. injection Hast' as <-. rewrite Hx in Hx'. injection Hx' as <-.
  assert (HF' : exists b, exists bd, make_substitutions O (new_initialized O (inv_seed (invocation_for O P u)) (inv_first_id (invocation_for O P u))) (fst rw) = Ok bd /\ visit_block O (fun x => assoc_str x bd) (reparse Y) (snd rw) = Ok b).
  { clear - HF Hrw. induction HF as [|rw' b rws bs H _ IH]; [destruct Hrw|]. destruct Hrw as [->|Hrw]; [|exact (IH Hrw)]. destruct H as (bd & H1 & H2). exists b, bd. auto. }
  destruct HF' as (b & bd' & Hm' & Hvis). rewrite Hm in Hm'. injection Hm' as <-.
  destruct (literal_no_name v Hv) as [l El]. pose proof (aliases_allowed O P u ast Hast) as Hal.
  assert (Hblock : snd rw = ast_block ast).
  { pose proof (expand_rounds ast) as H. destruct (all_some (rounds ast)) as [rs|] eqn:Er; [|congruence]. destruct H as (rws' & E & HR). rewrite E in Hx. injection Hx as ->.
    destruct (Forall2_in_r _ _ _ _ HR Hrw) as (items & _ & H & _). exact H. }
  unfold invocation_for in Hast, Hm. destruct (source_rewrite O P _ _ _ _ _ _ rw Hast Hx Hrw) as [Hnd _].
  rewrite Hblock in Hvis. unfold visit_block in Hvis. apply ExpandProofs.mapM_Ok in Hvis.
  apply in_split in Hb as (l1 & l2 & E). rewrite E in Hvis. apply Forall2_app_inv_l in Hvis as (o1 & o2 & _ & Hvis & _). inversion Hvis as [|? s' ? ? Hs' _]; subst.
  destruct Hd as [Hd|Hd].
  - exact (item_fails O _ (reparse Y) a v it Hp Ha ltac:(intros x; rewrite El; discriminate) Hd s' Hs').
  - refine (literal_fn _ a v it HY Ha Hv _ Hd s' Hs'). intros x Hxq. apply assoc_none. intros Hnm.
    rewrite make_substitutions_spec in Hm by exact Hnd. rewrite (bindings_names O _ _ _ Hm) in Hnm. pose proof (rewrite_aliases _ _ rw x Hx Hrw Hnm) as K.
    rewrite Forall_forall in Hal. specialize (Hal x K). rewrite (HP x Hxq) in Hal. discriminate Hal.
Qed.
End Uses.
