(** Proofs about inputs all of whose loops are unrolled. *)
From Coq Require Import String.
From Verif Require Import Base BaseFacts Token Types Values Ast Env Item Expand Resolve Eval AliasSubstitution Deprecation Interpreter Parse Macro
  SpecProduct SpecTuple SpecElab SpecSubst SpecPrograms SpecParse SpecDeprecation SpecMacro SpecRepro SpecForms SpecUnroll SpecUnrollAll SpecGrammar
  ParseProofs ParseIds SeparatorProofs InterpreterProofs MacroProofs MeaningProofs ReproProofs FormProofs UnrollProofs GrammarProofs.
Open Scope list_scope.

Section Reading.
Context (P : parsers) (hf : str -> bool) (Hw : within P).

(** ** Values *)
Definition rd (v : list tt) : expr := erase (fst (fst (snd (expr_at P hf 0%N v)))).
Lemma own_reads v : one_value P hf v -> reads P hf v (rd v) (List.length v) false.
Proof.
  intros (_ & _ & H). destruct (H 0%N) as (n' & e & He). apply (proj2 (reads_exactly P hf 0%N _ _ _ _)). unfold rd. rewrite He.
  exists n', e. split; [exact He|reflexivity].
Qed.
Lemma front_reads v tail : self_contained P hf v -> tail = [] \/ (exists tl, tail = comma :: tl) -> reads P hf (v ++ tail) (rd v) (List.length v) false.
Proof.
  intros (Hv & Hi) [-> |(tl & ->)]; [rewrite app_nil_r; exact (own_reads v Hv)|].
  apply (proj2 (reads_exactly P hf 0%N _ _ _ _)). rewrite (expr_alike P hf Hw 0%N v tl (Hi tl)).
  exact (proj1 (reads_exactly P hf 0%N _ _ _ _) (own_reads v Hv)).
Qed.

(** ** Lists *)
Lemma listed_joined {A B} (item : list tt -> B -> nat -> Prop) (text : A -> list tt) (f : A -> B) l :
  Forall (fun a => text a <> [] /\ forall tail, tail = [] \/ (exists tl, tail = comma :: tl) -> item (text a ++ tail) (f a) (List.length (text a))) l ->
  listed item (joined (map text l)) (map f l).
Proof.
  induction 1 as [|a l (Hne & Ha) HF IH]; [constructor|]. destruct l as [|b l].
  - cbn [map joined]. specialize (Ha [] (or_introl eq_refl)). rewrite app_nil_r in Ha. apply (listed_last _ _ _ _ Hne Ha). apply skipn_all.
  - change (joined (map text (a :: b :: l))) with (text a ++ comma :: joined (map text (b :: l))).
    apply (listed_more item _ (f a) (List.length (text a)) comma (joined (map text (b :: l)))).
    + apply Ha. right. eauto.
    + rewrite skipn_app, skipn_all, Nat.sub_diag. reflexivity.
    + reflexivity.
    + exact IH.
Qed.
Lemma unflagged {A} (g : A -> bool) l : (forall a, In a l -> g a = false) -> existsb g l = false.
Proof. induction l as [|a l IH]; intros H; [reflexivity|]. cbn. rewrite (H a) by (left; reflexivity). apply IH. intros b Hb. apply H. right. exact Hb. Qed.

Lemma not_parens v tail : one_value P hf v -> forall inner, ~ in_parens (v ++ tail) inner.
Proof. intros (Hne & Hp & _) inner (rest & E). destruct v as [|t v]; [congruence|]. injection E as -> _. exact (Hp inner v eq_refl). Qed.

Definition in_list {A} (item : list tt -> A -> nat -> Prop) (ts : list tt) (a : A) : Prop :=
  ts <> [] /\ forall tail, tail = [] \/ (exists tl, tail = comma :: tl) -> item (ts ++ tail) a (List.length ts).

Lemma nested_listed l : Forall (fun t => in_list (tuple_value_at P hf) (nested_text (fun v => v) t) (map_tuple_value rd t, false)) l ->
  exists l', listed (tuple_value_at P hf) (joined (map (nested_text (fun v => v)) l)) l' /\ map fst l' = map_tuple rd l /\ existsb snd l' = false.
Proof.
  intros H. exists (map (fun t => (map_tuple_value rd t, false)) l). split; [exact (listed_joined _ _ _ l H)|]. split.
  - unfold map_tuple. rewrite map_map. reflexivity.
  - apply unflagged. intros a Ha. apply in_map_iff in Ha as (t & <- & _). reflexivity.
Qed.
Lemma tuple_written t : Forall (self_contained P hf) (tuple_leaves t) ->
  in_list (tuple_value_at P hf) (nested_text (fun v => v) t) (map_tuple_value rd t, false).
Proof.
  induction t as [v|l IH] using tuple_ind'; intros H.
  - inversion H as [|? ? Hv _]; subst. split; [exact (proj1 (proj1 Hv))|]. intros tail Ht. cbn [nested_text map_tuple_value].
    apply tuple_leaf; [exact (not_parens v tail (proj1 Hv))|exact (front_reads v tail Hv Ht)].
  - split; [discriminate|]. intros tail Ht. cbn [nested_text map_tuple_value List.length].
    assert (HF : Forall (fun t => in_list (tuple_value_at P hf) (nested_text (fun v => v) t) (map_tuple_value rd t, false)) l).
    { clear Ht tail. induction IH as [|t l Ht _ IHl]; [constructor|]. cbn [tuple_leaves flat_map] in H. apply Forall_app in H as (H1 & H2). constructor; [exact (Ht H1)|exact (IHl H2)]. }
    destruct (nested_listed l HF) as (l' & Hl & Hm & Hs). fold (map_tuple rd l). rewrite <- Hm, <- Hs.
    apply tuple_nested with (inner := joined (map (nested_text (fun v => v)) l)); [exists tail; reflexivity|exact Hl].
Qed.

Definition read_source (w : written) : loop_source_value :=
  match w with WValue v => LSValue (rd v) | WTuple t => LSTuple (map_tuple rd t) end.
Lemma source_written w : Forall (self_contained P hf) (written_values w) -> in_list (source_at P hf) (written_text w) (read_source w, false).
Proof.
  destruct w as [v|l]; intros H.
  - inversion H as [|? ? Hv _]; subst. split; [exact (proj1 (proj1 Hv))|]. intros tail Ht. cbn [written_text read_source].
    apply SpecGrammar.source_value; [intros inner l Hp; exfalso; exact (not_parens v tail (proj1 Hv) inner Hp)|exact (front_reads v tail Hv Ht)].
  - split; [discriminate|]. intros tail Ht. cbn [written_text read_source nested_text List.length].
    assert (HF : Forall (fun t => in_list (tuple_value_at P hf) (nested_text (fun v => v) t) (map_tuple_value rd t, false)) l).
    { cbn [written_values] in H. clear Ht tail. induction l as [|t l IHl]; [constructor|]. cbn [flat_map] in H. apply Forall_app in H as (H1 & H2). constructor; [exact (tuple_written t H1)|exact (IHl H2)]. }
    destruct (nested_listed l HF) as (l' & Hl & Hm & Hs). rewrite <- Hm, <- Hs.
    apply source_tuple with (inner := joined (map (nested_text (fun v => v)) l)); [exists tail; reflexivity|exact Hl].
Qed.

(** ** Patterns *)
Lemma pattern_written p : Forall (fun x => ident_allowed P x = true) (tuple_leaves p) -> in_list (pattern_at P) (nested_text (fun x => [TIdent x]) p) p.
Proof.
  induction p as [x|l IH] using tuple_ind'; intros H.
  - inversion H; subst. split; [discriminate|]. intros tail _. apply pattern_name. assumption.
  - split; [discriminate|]. intros tail _. cbn [nested_text List.length]. apply pattern_tuple with (inner := joined (map (nested_text (fun x => [TIdent x])) l)); [exists tail; reflexivity|].
    rewrite <- (map_id l) at 2. apply listed_joined. clear tail. induction IH as [|t l Ht _ IHl]; [constructor|]. cbn [tuple_leaves flat_map] in H. apply Forall_app in H as (H1 & H2). constructor; [exact (Ht H1)|exact (IHl H2)].
Qed.
Lemma alias_written p : Forall (fun x => ident_allowed P x = true) (pattern_names p) -> exists t, pattern_text p = [t] /\ loop_alias_at P t p.
Proof.
  destruct p as [x|l]; intros H.
  - inversion H; subst. exists (TIdent x). split; [reflexivity|]. constructor. assumption.
  - eexists. split; [reflexivity|]. constructor. rewrite <- (map_id l) at 2. apply listed_joined. cbn [pattern_names] in H.
    induction l as [|t l IHl]; [constructor|]. cbn [flat_map] in H. apply Forall_app in H as (H1 & H2). constructor; [exact (pattern_written t H1)|exact (IHl H2)].
Qed.

(** ** Loops *)
Definition read_loop (l : written_loop) : loop_item := {| loop_pattern := fst l; loop_values := map read_source (snd l) |}.
Lemma loops_written ls rest : plain_loops P hf ls -> not_for rest -> loops_at P hf (loops_text ls ++ rest) (map read_loop ls) false rest.
Proof.
  intros H Hr. induction H as [|[p ws] ls (Hp & Hv) _ IH].
  - constructor. intros r ->. cbn in Hr. discriminate Hr.
  - destruct (alias_written p Hp) as (t & Et & Ht). cbn [fst snd] in *. unfold loops_text. cbn [flat_map fst snd]. rewrite Et. cbn [app]. rewrite <- app_assoc || idtac.
    fold (loops_text ls).
    set (l := map (fun w => (read_source w, false)) ws).
    assert (Hl : listed (source_at P hf) (joined (map written_text ws)) l).
    { apply listed_joined. clear IH. induction ws as [|w ws IHw]; [constructor|]. cbn [flat_map] in Hv. apply Forall_app in Hv as (H1 & H2). constructor; [exact (source_written w H1)|exact (IHw H2)]. }
    assert (Ef : existsb snd l = false) by (apply unflagged; intros a Ha; apply in_map_iff in Ha as (w & <- & _); reflexivity).
    assert (Em : map fst l = map read_source ws) by (unfold l; rewrite map_map; reflexivity).
    pose proof (one_more_loop P hf t p _ l _ _ _ _ Ht Hl IH) as G. rewrite Ef, Em in G. exact G.
Qed.
Lemma loops_same ts its u rest its' u' rest' : loops_at P hf ts its u rest -> loops_at P hf ts its' u' rest' -> its = its' /\ u = u' /\ rest = rest'.
Proof.
  intros H H'. apply (loops_spec P hf ts 0%N) in H as (x & Hx & Ex). apply (loops_spec P hf ts 0%N) in H' as (x' & Hx' & Ex').
  rewrite Hx in Hx'. injection Hx' as <-. rewrite Ex in Ex'. injection Ex' as -> Hr ->. split; [reflexivity|]. split; [reflexivity|]. exact (ann_inj P hf _ _ Hr).
Qed.

(** ** Rounds *)
Definition read_defs (ds : list (str * list tt)) : list spec_item := map (fun d => (fst d, rd (snd d))) ds.
Lemma paired_read p w : matched p (read_source w) = option_map read_defs (paired p w).
Proof.
  destruct p as [a|a], w as [v|t]; try reflexivity. cbn [read_source matched paired]. rewrite map_kinds. destruct (list_eq_dec _ _ _); [|reflexivity].
  rewrite map_values, combine_map. reflexivity.
Qed.
Lemma all_paired_read ps : forall ws, all_matched ps (map read_source ws) = option_map read_defs (all_paired ps ws).
Proof.
  induction ps as [|p ps IH]; intros [|w ws]; try reflexivity. cbn [map all_matched all_paired]. rewrite paired_read, IH.
  destruct (paired p w), (all_paired ps ws); try reflexivity. cbn. unfold read_defs. rewrite map_app. reflexivity.
Qed.
Lemma rounds_read (ast : raw_ast (list stmt)) ls : ast_loops ast = Some (map read_loop ls) ->
  rounds ast = map (option_map (fun ds => read_defs ds ++ own_items ast)) (written_rounds ls).
Proof.
  intros H. unfold rounds, written_rounds. rewrite H.
  replace (map loop_values (map read_loop ls)) with (map (map read_source) (map snd ls)) by (rewrite !map_map; reflexivity).
  replace (map loop_pattern (map read_loop ls)) with (map fst ls) by (rewrite map_map; reflexivity).
  rewrite combinations_map, !map_map. apply map_ext. intros c. rewrite all_paired_read. destruct (all_paired _ c); reflexivity.
Qed.

(** The names and values of a round are those of the loops. *)
Definition good_def (d : str * list tt) : Prop := ident_allowed P (fst d) = true /\ self_contained P hf (snd d).
Lemma nodes_leaves {V} d : forall (level : tuple V) n, In n (nodes_by_level d level) -> incl (tuple_leaves n) (flat_map tuple_leaves level).
Proof.
  induction d as [|d IH]; intros level n H; [destruct H|]. cbn [nodes_by_level] in H. apply in_app_or in H as [H|H].
  - intros v Hv. apply in_flat_map. eauto.
  - intros v Hv. apply IH in H. specialize (H v Hv). apply in_flat_map in H as (c & Hc & Hv'). apply in_flat_map in Hc as (t & Ht & Hc).
    apply in_flat_map. exists t. split; [exact Ht|]. destruct t as [x|l]; [destruct Hc|]. cbn [children] in Hc. cbn [tuple_leaves]. apply in_flat_map. eauto.
Qed.
Lemma order_leaves {V} (t : tuple V) v : In v (values_in_level_order t) -> In v (flat_map tuple_leaves t).
Proof.
  unfold values_in_level_order. intros H. apply in_flat_map in H as (n & Hn & Hv). apply (nodes_leaves _ _ _ Hn). destruct n; [exact Hv|destruct Hv].
Qed.
Lemma paired_good p w ds : Forall (fun x => ident_allowed P x = true) (pattern_names p) -> Forall (self_contained P hf) (written_values w) ->
  paired p w = Some ds -> Forall good_def ds.
Proof.
  intros Hp Hv H. destruct p as [a|a], w as [v|t]; try discriminate H.
  - injection H as <-. inversion Hp; subst. inversion Hv; subst. constructor; [split; assumption|constructor].
  - cbn [paired] in H. destruct (list_eq_dec _ _ _); [|discriminate H]. injection H as <-. apply Forall_forall. intros (x & v) Hin.
    pose proof (in_combine_l _ _ _ _ Hin) as H1. pose proof (in_combine_r _ _ _ _ Hin) as H2. apply order_leaves in H1. apply order_leaves in H2.
    rewrite Forall_forall in Hp, Hv. split; [exact (Hp x H1)|exact (Hv v H2)].
Qed.
Lemma all_paired_good ps : forall ws ds, Forall (fun p => Forall (fun x => ident_allowed P x = true) (pattern_names p)) ps ->
  Forall (fun w => Forall (self_contained P hf) (written_values w)) ws -> all_paired ps ws = Some ds -> Forall good_def ds.
Proof.
  induction ps as [|p ps IH]; intros [|w ws] ds Hp Hv H; try (injection H as <-; constructor). cbn [all_paired] in H.
  inversion Hp; subst. inversion Hv; subst. destruct (paired p w) as [a|] eqn:E; [|discriminate H]. destruct (all_paired ps ws) as [b|] eqn:E'; [|discriminate H].
  injection H as <-. apply Forall_app. split; [eapply paired_good; eassumption|eapply IH; eassumption].
Qed.
Lemma combination_parts {A} (l : list (list A)) c : In c (all_combinations l) -> forall a, In a c -> exists s, In s l /\ In a s.
Proof.
  unfold all_combinations. destruct l as [|s l]; [intros []|]. generalize (s :: l) as q. clear s l. intros q. revert c.
  induction q as [|s q IH]; intros c H a Ha; cbn [nested_loops] in H.
  - destruct H as [<-|[]]. destruct Ha.
  - apply in_flat_map in H as (x & Hx & H). apply in_map_iff in H as (c' & <- & Hc). destruct Ha as [<-|Ha]; [exists s; split; [left; reflexivity|exact Hx]|].
    destruct (IH c' Hc a Ha) as (s' & ? & ?). exists s'. split; [right|]; assumption.
Qed.
Lemma all_some_in {A} (l : list (option A)) r a : all_some l = Some r -> In a r -> In (Some a) l.
Proof.
  revert r. induction l as [|[x|] l IH]; intros r H Ha; [injection H as <-; destruct Ha| |discriminate H].
  cbn in H. destruct (all_some l) as [r'|]; [|discriminate H]. injection H as <-. destruct Ha as [<-|Ha]; [left; reflexivity|right; exact (IH r' eq_refl Ha)].
Qed.
Lemma rounds_good ls rs ds : plain_loops P hf ls -> all_some (written_rounds ls) = Some rs -> In ds rs -> Forall good_def ds.
Proof.
  intros H Hr Hin. apply (all_some_in _ _ _ Hr) in Hin. unfold written_rounds in Hin. apply in_map_iff in Hin as (c & Hc & Hin). unfold plain_loops in H. rewrite Forall_forall in H.
  apply (all_paired_good _ _ _) in Hc; [exact Hc| |].
  - apply Forall_forall. intros p Hp. apply in_map_iff in Hp as (l & <- & Hl). exact (proj1 (H l Hl)).
  - apply Forall_forall. intros w Hwi. destruct (combination_parts _ _ Hin w Hwi) as (s & Hs & Hws). apply in_map_iff in Hs as (l & <- & Hl).
    pose proof (proj2 (H l Hl)) as G. rewrite Forall_forall in G. apply Forall_forall. intros v Hv. apply G. apply in_flat_map. eauto.
Qed.

(** ** Headers *)
Lemma comma_separates' : separates true comma.
Proof. constructor. Qed.
Lemma definition_front x v rest : good_def (x, v) -> definition_at P hf (definition_text (x, v) ++ comma :: rest) (x, rd v) false (comma :: rest).
Proof.
  intros (Hx & Hv). cbn [fst snd] in *. unfold definition_text. cbn [fst snd app].
  pose proof (definition_at_ P hf x false (v ++ comma :: rest) (rd v) (List.length v) false Hx) as G. rewrite skipn_app, skipn_all, Nat.sub_diag in G. cbn [skipn app] in G.
  apply G. apply front_reads; [exact Hv|]. right. eauto.
Qed.
Lemma comma_definitions c ts ds used u rest : definitions_at P hf c ts ds used u rest -> used <> Some false -> definitions_at P hf true ts ds used u rest.
Proof.
  destruct 1 as [ts d u Hd|ts d u s r Hd Hs Hr|ts d u s r ds used u' rest Hd Hs Hr Hn]; intros Hu.
  - constructor. exact Hd.
  - destruct c; [|congruence]. eapply last_definition_sep; eassumption.
  - destruct c; [|congruence]. eapply more_definitions_at; eassumption.
Qed.
Definition spec_own (s : option alias_spec) : list spec_item := match s with Some sp => spec_items sp | None => [] end.
Definition no_semicolons (s : option alias_spec) : Prop := forall sp, s = Some sp -> is_comma_used sp <> Some false.

Lemma definitions_front ds : forall rest spec rest', ds <> [] -> Forall good_def ds -> spec_at P hf rest spec false rest' -> no_semicolons spec ->
  definitions_at P hf true (round_text ds rest) (read_defs ds ++ spec_own spec) (Some true) false rest'.
Proof.
  induction ds as [|[x v] ds IH]; intros rest spec rest' Hne Hd Hs Hn; [congruence|]. inversion Hd as [|? ? Hx Hds]; subst.
  unfold round_text. cbn [flat_map]. rewrite <- !app_assoc. cbn [app]. fold (round_text ds rest).
  pose proof (definition_front x v (round_text ds rest) Hx) as Hf. cbn [read_defs map fst snd app]. fold (read_defs ds).
  destruct ds as [|[y w] ds].
  - cbn [read_defs map app]. change (round_text [] rest) with rest in *. inversion Hs as [? Hi|? c items used u r Hi Hdef]; subst.
    + apply (last_definition_sep P hf true _ (x, rd v) false comma rest' Hf); [constructor|exact Hi].
    + change false with (false || false). apply (more_definitions_at P hf true _ (x, rd v) false comma rest _ used false rest' Hf); [constructor|exact Hi|].
      apply (comma_definitions c); [exact Hdef|]. exact (Hn _ eq_refl).
  - change false with (false || false). apply (more_definitions_at P hf true _ (x, rd v) false comma (round_text ((y, w) :: ds) rest) _ (Some true) false rest' Hf); [constructor| |].
    + inversion Hds as [|? ? (Hy & _) _]; subst. exists y. eexists. split; [reflexivity|exact Hy].
    + apply IH; [discriminate|assumption|assumption|assumption].
Qed.
Lemma round_header ds rest spec rest' : ident_allowed P (txt "for") = false -> not_for rest -> Forall good_def ds -> spec_at P hf rest spec false rest' -> no_semicolons spec ->
  exists spec', header_at P hf (round_text ds rest) None spec' false rest' /\ spec_own spec' = read_defs ds ++ spec_own spec /\ no_semicolons spec' /\ (spec <> None -> spec' <> None).
Proof.
  intros Hfor Hnf Hd Hs Hn. destruct ds as [|[x v] ds].
  - exists spec. split; [|auto]. change (round_text [] rest) with rest. pose proof (no_loop P hf rest) as Hl.
    specialize (Hl ltac:(intros r ->; discriminate Hnf)). exact (header_at_ P hf rest [] false rest spec false rest' Hl Hs).
  - exists (Some {| spec_items := read_defs ((x, v) :: ds) ++ spec_own spec; is_comma_used := Some true |}).
    split; [|split; [reflexivity|split; [intros sp E; injection E as <-; discriminate|discriminate]]].
    pose proof (definitions_front ((x, v) :: ds) rest spec rest' ltac:(discriminate) Hd Hs Hn) as G.
    inversion Hd as [|? ? (Hx & _) _]; subst. cbn [fst] in Hx.
    apply (header_at_ P hf (round_text ((x, v) :: ds) rest) [] false (round_text ((x, v) :: ds) rest) _ false rest').
    + apply no_loop. intros r E. injection E as -> _. congruence.
    + apply (some_spec P hf _ true); [|exact G]. exists x. eexists. split; [reflexivity|exact Hx].
Qed.

Lemma definition_suffix ts d u after : definition_at P hf ts d u after -> exists a, ts = a ++ after.
Proof. destruct 1 as [x j vs e k u Hx Hr]. exists (TIdent x :: TPunct 61%N j :: firstn k vs). cbn [app]. rewrite firstn_skipn. reflexivity. Qed.
Lemma definitions_suffix c ts ds used u rest : definitions_at P hf c ts ds used u rest -> exists a, ts = a ++ rest.
Proof.
  induction 1 as [ts d u Hd|ts d u s r Hd Hs Hr|ts d u s r ds used u' rest Hd Hs Hr _ IH].
  - exists ts. rewrite app_nil_r. reflexivity.
  - apply definition_suffix in Hd as (a & ->). exists (a ++ [s]). rewrite <- app_assoc. reflexivity.
  - apply definition_suffix in Hd as (a & ->). destruct IH as (b & ->). exists (a ++ s :: b). rewrite <- app_assoc. reflexivity.
Qed.
Lemma spec_suffix' ts spec u rest : spec_at P hf ts spec u rest -> exists a, ts = a ++ rest.
Proof. destruct 1 as [ts H|ts c items used u rest H Hd]; [exists []; reflexivity|exact (definitions_suffix _ _ _ _ _ _ Hd)]. Qed.

Lemma header_loops ls rest loops spec rest' : ls <> [] -> plain_loops P hf ls -> not_for rest -> header_at P hf (loops_text ls ++ rest) loops spec false rest' ->
  loops = Some (map read_loop ls) /\ spec_at P hf rest spec false rest'.
Proof.
  intros Hne Hl Hnf H. remember (loops_text ls ++ rest) as ts eqn:Ets. remember false as fl eqn:Ef in H. destruct H as [ts its u ts1 sp u' r Hlo Hsp]. subst ts.
  destruct (loops_same _ _ _ _ _ _ _ Hlo (loops_written ls rest Hl Hnf)) as (-> & -> & ->). cbn [orb] in Ef. subst u'. split; [|exact Hsp].
  destruct ls; [congruence|reflexivity].
Qed.

(** ** The macros *)
Lemma func_rounds ls rest a : ls <> [] -> plain_loops P hf ls -> ident_allowed P (txt "for") = false -> not_for rest -> unterminated rest ->
  func_input P hf (loops_text ls ++ rest) a -> no_semicolons (ast_spec a) ->
  ast_loops a = Some (map read_loop ls) /\
  forall ds, Forall good_def ds -> exists spec', func_input P hf (round_text ds rest) {| ast_loops := None; ast_spec := spec'; ast_block := ast_block a |} /\
    spec_own spec' = read_defs ds ++ own_items a /\ no_semicolons spec'.
Proof.
  intros Hne Hl Hfor Hnf Hu H Hn. destruct H as [loops spec r block k Hh Hb Ht]. cbn [ast_loops ast_spec ast_block] in *.
  destruct (header_loops ls rest loops spec r Hne Hl Hnf Hh) as (-> & Hs). split; [reflexivity|]. intros ds Hd.
  destruct (round_header ds rest spec r Hfor Hnf Hd Hs Hn) as (spec' & Hh' & Ho & Hn' & _). exists spec'. split; [|split; [exact Ho|exact Hn']].
  apply (func_input_ P hf _ None spec' r block k Hh' Hb). left. destruct Ht as [Ht|(s & c & Ht & Hc & _)]; [exact Ht|]. exfalso.
  destruct (spec_suffix' _ _ _ _ Hs) as (b & ->). specialize (Hu (b ++ firstn k r) s). rewrite <- app_assoc, <- Ht, firstn_skipn in Hu. specialize (Hu eq_refl).
  destruct Hc; discriminate Hu.
Qed.
Lemma attr_rounds ls rest item a : ls <> [] -> plain_loops P hf ls -> ident_allowed P (txt "for") = false -> not_for rest ->
  attr_input P hf (loops_text ls ++ rest) item a -> no_semicolons (ast_spec a) ->
  ast_loops a = Some (map read_loop ls) /\
  forall ds, Forall good_def ds -> exists spec', attr_input P hf (round_text ds rest) item {| ast_loops := None; ast_spec := spec'; ast_block := ast_block a |} /\
    spec_own spec' = read_defs ds ++ own_items a /\ no_semicolons spec'.
Proof.
  intros Hne Hl Hfor Hnf H Hn. destruct H as [loops spec r block Hh Hb Ht]. cbn [ast_loops ast_spec ast_block] in *.
  destruct (header_loops ls rest loops spec r Hne Hl Hnf Hh) as (-> & Hs). split; [reflexivity|]. intros ds Hd.
  destruct (round_header ds rest spec r Hfor Hnf Hd Hs Hn) as (spec' & Hh' & Ho & Hn' & Hk). exists spec'. split; [|split; [exact Ho|exact Hn']].
  apply (attr_input_ P hf _ item None spec' r block Hh' Hb). destruct Ht as [Ht|(s & c & Ht & Hc & Hx)]; [left; exact Ht|right]. exists s, c. auto.
Qed.
End Reading.

(** ** Source *)
Section Source.
Context (O : oracles) (P : parsers) (Y : syntax) (Hw : within P).
Let hf := known O.

Lemma used_parsed item ts u : used_with item ts u -> inv_parsed (invocation_for O P u) =
  match item with None => parse_func_macro P hf (u_next_id u) ts | Some it => parse_attr_macro P hf (u_next_id u) ts it end.
Proof. destruct item as [it|]; [|apply text_parsed]. unfold invocation_for. intros ->. reflexivity. Qed.

Lemma erased_semicolons (ast : raw_ast (list stmt)) : uses_semicolons (ast_spec ast) = false <-> no_semicolons (ast_spec (erase_ast ast)).
Proof.
  unfold erase_ast, map_ast, no_semicolons, uses_semicolons. cbn [ast_spec]. destruct (ast_spec ast) as [sp|]; cbn [option_map].
  - destruct (is_comma_used sp) as [[|]|] eqn:E; split; intros H; try reflexivity; try discriminate.
    + intros s Es. injection Es as <-. cbn. rewrite E. discriminate.
    + exfalso. apply (H _ eq_refl). cbn. exact E.
    + intros s Es. injection Es as <-. cbn. rewrite E. discriminate.
  - split; [discriminate|reflexivity].
Qed.

(** What the rounds are parsed as. *)
Lemma rounds_parsed item ls rest u ast : ls <> [] -> plain_loops P hf ls -> ident_allowed P (txt "for") = false -> not_for rest -> (item = None -> unterminated rest) ->
  used_with item (loops_text ls ++ rest) u -> p_ast (inv_parsed (invocation_for O P u)) = Ok (Some ast) -> uses_semicolons (ast_spec ast) = false ->
  ast_loops (erase_ast ast) = Some (map (read_loop P hf) ls) /\
  forall ds u', Forall (good_def P hf) ds -> used_with item (round_text ds rest) u' ->
    exists ast', p_ast (inv_parsed (invocation_for O P u')) = Ok (Some ast') /\ uses_semicolons (ast_spec ast') = false /\ ast_loops ast' = None /\ ast_block ast' = ast_block ast /\
      map_items erase (own_items ast') = read_defs P hf ds ++ map_items erase (own_items ast).
Proof.
  intros Hne Hl Hfor Hnf Hun Hu Hp Hs. rewrite (used_parsed _ _ _ Hu) in Hp. apply erased_semicolons in Hs.
  assert (Hdone : forall ast' spec', erase_ast ast' = {| ast_loops := None; ast_spec := spec'; ast_block := ast_block (erase_ast ast) |} -> no_semicolons spec' ->
     uses_semicolons (ast_spec ast') = false /\ ast_loops ast' = None /\ ast_block ast' = ast_block ast /\ map_items erase (own_items ast') = spec_own spec').
  { intros ast' spec' E Hn. split; [|split; [|split]].
    - apply erased_semicolons. rewrite E. exact Hn.
    - apply (f_equal ast_loops) in E. cbn in E. destruct (ast_loops ast'); [discriminate E|reflexivity].
    - apply (f_equal ast_block) in E. exact E.
    - rewrite <- own_items_map. fold (@erase_ast (list stmt)). rewrite E. reflexivity. }
  destruct item as [it|].
  - assert (Ha : attr_input P hf (loops_text ls ++ rest) it (erase_ast ast)) by (apply (attr_spec P hf (u_next_id u)); eauto).
    destruct (attr_rounds P hf Hw ls rest it _ Hne Hl Hfor Hnf Ha Hs) as (Hlo & Hro). split; [exact Hlo|]. intros ds u' Hd Hu'. destruct (Hro ds Hd) as (spec' & Hi & Ho & Hn).
    apply (attr_spec P hf (u_next_id u')) in Hi as (ast' & Hp' & He). exists ast'. rewrite (used_parsed _ _ _ Hu'). split; [exact Hp'|].
    destruct (Hdone ast' spec' He Hn) as (H1 & H2 & H3 & H4). rewrite H4, Ho, <- own_items_map. auto.
  - assert (Ha : func_input P hf (loops_text ls ++ rest) (erase_ast ast)) by (apply (func_spec P hf (u_next_id u)); eauto).
    destruct (func_rounds P hf Hw ls rest _ Hne Hl Hfor Hnf (Hun eq_refl) Ha Hs) as (Hlo & Hro). split; [exact Hlo|]. intros ds u' Hd Hu'. destruct (Hro ds Hd) as (spec' & Hi & Ho & Hn).
    apply (func_spec P hf (u_next_id u')) in Hi as (ast' & Hp' & He). exists ast'. rewrite (used_parsed _ _ _ Hu'). split; [exact Hp'|].
    destruct (Hdone ast' spec' He Hn) as (H1 & H2 & H3 & H4). rewrite H4, Ho, <- own_items_map. auto.
Qed.

Lemma all_unrolled item uses i u us ls rest ast rs :
  ls <> [] -> plain_loops P hf ls -> ident_allowed P (txt "for") = false -> not_for rest -> (item = None -> unterminated rest) ->
  nth_error uses i = Some u -> used_with item (loops_text ls ++ rest) u ->
  p_ast (inv_parsed (invocation_for O P u)) = Ok (Some ast) -> raised (invocation_for O P u) = [] ->
  all_some (written_rounds ls) = Some rs ->
  Forall2 (fun ds u' => used_with item (round_text ds rest) u' /\ u_seed u' = u_seed u) rs us ->
  nth_error (expand_uses O P Y uses) i = Some (outputs_in_sequence (expand_uses O P Y us)).
Proof.
  intros Hne Hl Hfor Hnf Hun Hi Hu Hp Hr Hro HF. rewrite (use_output O P Y uses i u Hi). f_equal.
  set (p := prefix_of (u_source (hd u uses))). unfold outcome. rewrite Hp.
  pose proof (none_raised O P u ast Hp Hr) as Hs.
  destruct (rounds_parsed item ls rest u ast Hne Hl Hfor Hnf Hun Hu Hp Hs) as (Hlo & Hrd).
  assert (Hrs : option_map (map (map_items erase)) (all_some (rounds ast)) = Some (map (fun ds => read_defs P hf ds ++ map_items erase (own_items ast)) rs)).
  { rewrite <- all_some_map, <- rounds_map. fold (@erase_ast (list stmt)). rewrite (rounds_read P hf _ _ Hlo), all_some_map, Hro. cbn [option_map]. f_equal. apply map_ext. intros ds.
    unfold erase_ast. rewrite own_items_map. reflexivity. }
  destruct (all_some (rounds ast)) as [irs|] eqn:Eirs; [|discriminate Hrs]. cbn [option_map] in Hrs. injection Hrs as Hrs.
  rewrite execute_rounds, Eirs.
  change (as_output (in_sequence (map (fun items => execute O Y (new_initialized O (inv_seed (invocation_for O P u)) (inv_first_id (invocation_for O P u))) (thread_for p (invocation_for O P u)) (round_ast (ast_block ast) items))
    irs)) = outputs_in_sequence (expand_uses O P Y us)).
  rewrite sequence_output, map_map. f_equal.
  assert (Hn : Forall (fun items => NoDup (item_ids items)) irs).
  { apply Forall_forall. intros items Hin. exact (rounds_NoDup O P u ast _ _ Hp Eirs Hin). }
  assert (Hg : Forall (Forall (good_def P hf)) rs) by (apply Forall_forall; intros ds Hin; exact (rounds_good P hf ls rs ds Hl Hro Hin)).
  assert (G : forall q, map (fun items => as_output (execute O Y (new_initialized O (inv_seed (invocation_for O P u)) (inv_first_id (invocation_for O P u))) (thread_for p (invocation_for O P u)) (round_ast (ast_block ast) items))) irs =
    map (fun u' => outcome O Y q (invocation_for O P u')) us).
  { intros q. clear -HF Hrs Hn Hg Hrd Hr. revert irs Hrs Hn. induction HF as [|ds u' rs us (Hu' & Hseed) HF IH]; intros [|items irs] Hrs Hn; try discriminate Hrs; [reflexivity|].
    cbn [map] in Hrs. injection Hrs as Hit Hrs. inversion Hn; subst. inversion Hg; subst. cbn [map]. rewrite <- (IH ltac:(assumption) irs Hrs ltac:(assumption)). f_equal.
    destruct (Hrd ds u' ltac:(assumption) Hu') as (ast' & Hp' & Hs' & Hlo' & Hb' & Ho').
    unfold outcome. rewrite Hp'. change (inv_seed (invocation_for O P u)) with (u_seed u). rewrite <- Hseed.
    assert (Hro' : all_some (rounds ast') = Some [own_items ast']) by (unfold rounds; rewrite Hlo'; reflexivity).
    rewrite (execute_rounds O Y _ _ ast'), Hro'. cbn [map]. rewrite Hb'.
    rewrite (round_same O Y p q _ (invocation_for O P u) (invocation_for O P u') (u_seed u') (inv_first_id (invocation_for O P u)) (inv_first_id (invocation_for O P u')) (ast_block ast) items (own_items ast') eq_refl Hr).
    - change (inv_seed (invocation_for O P u')) with (u_seed u').
      destruct (execute O Y _ _ _) as [ts|e|x]; [|reflexivity|reflexivity]. cbn [in_sequence bind as_output]. rewrite app_nil_r. reflexivity.
    - exact (raised_none O P u' _ Hp' Hs').
    - assumption.
    - exact (rounds_NoDup O P u' _ _ _ Hp' Hro' (or_introl eq_refl)).
    - rewrite Hit, Ho'. reflexivity. }
  destruct us as [|u0 us]; [exact (G [])|]. rewrite expand_uses_outcomes. exact (G (prefix_of (u_source u0))).
Qed.

Lemma none_unrolled item uses i u ls rest ast :
  ls <> [] -> plain_loops P hf ls -> ident_allowed P (txt "for") = false -> not_for rest -> (item = None -> unterminated rest) ->
  nth_error uses i = Some u -> used_with item (loops_text ls ++ rest) u ->
  p_ast (inv_parsed (invocation_for O P u)) = Ok (Some ast) -> raised (invocation_for O P u) = [] ->
  all_some (written_rounds ls) = None -> nth_error (expand_uses O P Y uses) i = Some (CompileError TypeError).
Proof.
  intros Hne Hl Hfor Hnf Hun Hi Hu Hp Hr Hro. rewrite (use_output O P Y uses i u Hi). f_equal.
  unfold outcome. rewrite Hp. pose proof (none_raised O P u ast Hp Hr) as Hs.
  destruct (rounds_parsed item ls rest u ast Hne Hl Hfor Hnf Hun Hu Hp Hs) as (Hlo & _).
  assert (Hrs : option_map (map (map_items erase)) (all_some (rounds ast)) = None).
  { rewrite <- all_some_map, <- rounds_map. fold (@erase_ast (list stmt)). rewrite (rounds_read P hf _ _ Hlo), all_some_map, Hro. reflexivity. }
  destruct (all_some (rounds ast)) as [irs|] eqn:Eirs; [discriminate Hrs|]. rewrite execute_rounds, Eirs. reflexivity.
Qed.
End Source.
