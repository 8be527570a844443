(** Proofs for C97: commas for semicolons. *)
From Coq Require Import String Lia.
From Verif Require Import Base BaseFacts Token Types Values Ast Env Eval Expand CrossProduct Item Deprecation Interpreter Parse Macro SpecElab SpecParse SpecDeprecation
  SpecForms SpecMigration ParseProofs ParseIds SeparatorProofs InterpreterProofs MeaningProofs FormProofs.
Open Scope list_scope.

Section Parsing.
Context (P : parsers) (hf : str -> bool).
Notation ann' := (ann P hf).

Lemma call_self_delimiting f args : ident_allowed P f = true -> hf f = true -> self_delimiting P hf [TIdent f; TGroup Paren args].
Proof.
  intros H1 H2 n. unfold expr_at, parse_expr. cbn [app map ann]. unfold parse_call. rewrite H1, H2. cbn [andb a_args].
  destruct (parse_args P hf (map (ann P hf) args) n) as [n1 es]. eexists _, _. intros r. reflexivity.
Qed.

(** ** The loops *)
Definition no_loop_here (r : list tt) : Prop := match r with TIdent x :: _ => x <> txt "for" | _ => True end.
Lemma loops_read h : loop_text h -> forall n, exists n1 o, forall r, no_loop_here r ->
  parse_loops P hf (map ann' (h ++ r)) n = (n1, option_map (fun p => (fst p, map ann' r, snd p)) o).
Proof.
  induction 1 as [|pat kw vals h _ IH]; intros n.
  - exists n, (Some ([], false)). intros [|t r] H; [reflexivity|]. cbn [app map parse_loops]. rewrite ann_tok. cbn [option_map fst snd].
    destruct t as [x|c j|l|d ts]; try reflexivity. cbn [is_word]. cbn in H. match goal with |- context [str_eqb ?a ?b] => destruct (str_eqb a b) eqn:E end; [apply str_eqb_eq in E; subst; exfalso; apply H; reflexivity|reflexivity].
  - cbn [app map parse_loops]. change (is_word (txt "for") (a_tok (ann' (TIdent (txt "for"))))) with true. cbv iota.
    destruct (parse_loop_alias P (ann' pat)) as [al|]; [|exists n, None; reflexivity].
    destruct (is_word (txt "in") (a_tok (ann' kw))); [|exists n, None; reflexivity].
    destruct (parse_source_list P hf n (ann' vals)) as [n1 [[vs u]|]]; [|exists n1, None; reflexivity].
    destruct (IH n1) as (n2 & o & E). exists n2, (option_map (fun p => ({| loop_pattern := al; loop_values := vs |} :: fst p, u || snd p)) o).
    intros r H. rewrite (E r H). destruct o as [[items u']|]; reflexivity.
Qed.

(** ** The definitions *)
Lemma text_read ds : ds <> [] -> Forall (fun d => ident_allowed P (fst d) = true /\ self_delimiting P hf (snd d)) ds ->
  forall n, exists items, List.length items = List.length ds /\ forall c trailing rest, (if trailing : bool then ~ at_ident P rest else rest = []) ->
    definition_list P hf c n (list_text c ds ++ (if trailing then sep c :: rest else rest)) items trailing false rest.
Proof.
  intros Hne HF. induction HF as [|[x vs] r (Hx & Hv) Hr IH]; [congruence|]. intros n. cbn [fst snd] in *. destruct (Hv n) as (n' & e & E).
  assert (D : forall rest, defines P hf n (definition_text (x, vs) ++ rest) (x, e) false n' rest).
  { intros rest. cbn [definition_text fst snd app]. pose proof (defines_ P hf n x false (vs ++ rest) e (List.length vs) false n' Hx (E rest)) as H.
    rewrite skipn_app, skipn_all, Nat.sub_diag in H. exact H. }
  destruct r as [|d2 r].
  - exists [(x, e)]. split; [reflexivity|]. intros c trailing rest Hend. cbn [list_text].
    exists n, (definition_text (x, vs) ++ (if trailing then sep c :: rest else rest)), [], (x, e), false, false, n'.
    exists (if trailing then sep c :: rest else rest). split; [constructor|]. split; [apply D|]. split; [reflexivity|]. split; [reflexivity|].
    destruct trailing; [exists (sep c); split; [reflexivity|split; [apply sep_separates|exact Hend]]|auto].
  - destruct (IH ltac:(discriminate) n') as (items & Hl & HL). exists ((x, e) :: items). split; [cbn in *; lia|].
    intros c trailing rest Hend. specialize (HL c trailing rest Hend).
    set (tail := list_text c (d2 :: r) ++ (if trailing then sep c :: rest else rest)) in *.
    destruct HL as (n1 & ts1 & ds0 & d & u1 & u2 & n2 & after & HD & Hdd & -> & Hu & He).
    exists n1, ts1, ((x, e) :: ds0), d, (false || u1), u2, n2, after.
    replace (list_text c ((x, vs) :: d2 :: r) ++ (if trailing then sep c :: rest else rest)) with (definition_text (x, vs) ++ sep c :: tail)
      by (subst tail; cbn [list_text]; rewrite <- app_assoc; reflexivity).
    repeat split; auto. econstructor; [apply D|apply sep_separates| |exact HD].
    inversion Hr as [|? ? (Hx2 & _) _]; subst. exists (fst d2). destruct d2 as [x2 vs2], r; eexists; split; try reflexivity; exact Hx2.
Qed.

(** ** The header *)
Lemma header_read n loops ds : ident_allowed P (txt "for") = false -> loop_text loops -> ds <> [] ->
  Forall (fun d => ident_allowed P (fst d) = true /\ self_delimiting P hf (snd d)) ds ->
  exists o items, List.length items = List.length ds /\ forall c (trailing : bool) rest, (if trailing then ~ at_ident P rest else rest = []) ->
    parse_header P hf n (map ann' (loops ++ list_text c ds ++ (if trailing then sep c :: rest else rest))) =
    match o with
    | None => None
    | Some (ls, u) => Some (ls, Some {| spec_items := items; is_comma_used := if trailing then Some c else match items with [_] => None | _ => Some c end |}, map ann' rest, u)
    end.
Proof.
  intros Hf Hl Hne HF. destruct (loops_read loops Hl n) as (n1 & o & E). destruct (text_read ds Hne HF n1) as (items & Hlen & HL).
  exists (option_map (fun p => (match fst p with [] => None | _ => Some (fst p) end, snd p)) o), items. split; [exact Hlen|]. intros c trailing rest Hend.
  assert (Hi : at_ident P (list_text c ds ++ (if trailing then sep c :: rest else rest))).
  { destruct ds as [|d ds]; [congruence|]. inversion HF as [|? ? (Hd & _) _]; subst. apply list_text_ident; exact Hd. }
  unfold parse_header. rewrite E by (destruct Hi as (x & r & -> & Hx); unfold no_loop_here; intros ->; rewrite Hf in Hx; discriminate Hx).
  destruct o as [[ls u]|]; [|reflexivity]. cbn [option_map fst snd]. rewrite (proj2 (peek_ident_spec P hf _) Hi).
  destruct (list_accepted P hf c n1 _ items trailing false rest (HL c trailing rest Hend)) as (n2 & ->). cbn [snd]. rewrite orb_false_r. reflexivity.
Qed.

Definition used_as (c : option bool) (r : res (option (raw_ast (list stmt)))) : Prop :=
  match r with Ok (Some ast) => exists s, ast_spec ast = Some s /\ is_comma_used s = c | _ => True end.
Lemma func_migrated n loops ds body trailing : braced P -> ident_allowed P (txt "for") = false -> loop_text loops -> ds <> [] ->
  Forall (fun d => ident_allowed P (fst d) = true /\ self_delimiting P hf (snd d)) ds ->
  let text c := loops ++ list_text c ds ++ sep c :: TGroup Brace body :: (if trailing : bool then [sep c] else []) in
  p_ast (parse_func_macro P hf n (text true)) = result_with_commas (p_ast (parse_func_macro P hf n (text false))) /\
  used_as (Some false) (p_ast (parse_func_macro P hf n (text false))).
Proof.
  intros Hb Hf Hl Hne HF text. destruct (header_read n loops ds Hf Hl Hne HF) as (o & items & _ & E).
  assert (N : forall c, ~ at_ident P (TGroup Brace body :: (if trailing then [sep c] else []))) by (intros c (x & r & H & _); discriminate H).
  unfold parse_func_macro, text. rewrite (E true true _ (N true)), (E false true _ (N false)).
  destruct o as [[ls u]|]; [|split; [reflexivity|exact I]].
  rewrite !toks_ann, (proj2 Hb body (if trailing then [sep true] else [])), (proj2 Hb body (if trailing then [sep false] else [])).
  destruct (pre_block P [TGroup Brace body]) as [[[b k] u2]|] eqn:Eb; [|split; [reflexivity|exact I]].
  destruct (proj1 Hb _ _ _ _ Eb) as [-> _]. cbn [skipn]. destruct trailing; cbn; destruct (u || u2); cbn; (split; [reflexivity|]); try exact I; eexists; split; reflexivity.
Qed.
Lemma attr_migrated n loops ds item trailing : ident_allowed P (txt "for") = false -> loop_text loops -> ds <> [] ->
  Forall (fun d => ident_allowed P (fst d) = true /\ self_delimiting P hf (snd d)) ds ->
  let text c := loops ++ list_text c ds ++ (if trailing : bool then [sep c] else []) in
  p_ast (parse_attr_macro P hf n (text true) item) = result_with_commas (p_ast (parse_attr_macro P hf n (text false) item)) /\
  used_as (if has_separator AttributeForm ds trailing then Some false else None) (p_ast (parse_attr_macro P hf n (text false) item)).
Proof.
  intros Hf Hl Hne HF text. destruct (header_read n loops ds Hf Hl Hne HF) as (o & items & Hlen & E).
  assert (E' : forall c, parse_header P hf n (map ann' (text c)) = match o with None => None | Some (ls, u) =>
     Some (ls, Some {| spec_items := items; is_comma_used := if trailing then Some c else match items with [_] => None | _ => Some c end |}, [], u) end).
  { intros c. unfold text. specialize (E c trailing []). destruct trailing; apply E; [|reflexivity]. intros (x & r & H & _). discriminate H. }
  unfold parse_attr_macro. rewrite !E'. destruct o as [[ls u]|]; [|split; [reflexivity|exact I]]. cbn [toks map skip_separator]. destruct u; [split; [reflexivity|exact I]|].
  destruct (pre_block P [TGroup Brace item]) as [[[b [|[|k]]] []]|]; try (split; [reflexivity|exact I]). cbn. split.
  - do 2 f_equal. unfold said_with_commas. cbn. destruct trailing; [reflexivity|]. destruct items as [|? [|? ?]]; reflexivity.
  - eexists. split; [reflexivity|]. cbn. destruct trailing; [reflexivity|]. cbn [orb].
    destruct ds as [|d1 [|d2 ds]]; [congruence| |]; destruct items as [|i1 [|i2 items]]; try discriminate Hlen; reflexivity.
Qed.
End Parsing.

(** ** Outcomes *)
Section Outcomes.
Context (O : oracles) (P : parsers) (Y : syntax).

Lemma expand_said {B} (ast : raw_ast B) :
  match expand (said_with_commas ast), expand ast with
  | Ok l, Ok l' => Forall2 (fun rw rw' => spec_items (fst rw) = spec_items (fst rw') /\ snd rw = snd rw') l l'
  | Err e, Err e' => e = e'
  | Panic p, Panic p' => p = p'
  | _, _ => False
  end.
Proof.
  destruct ast as [loops spec block]. unfold expand. cbn [said_with_commas ast_loops ast_spec ast_block].
  destruct loops as [loops|]; [|constructor; [|constructor]; destruct spec; split; reflexivity].
  generalize (S (fold_right (fun v n => List.length v * n) 1 (map loop_values loops))) (from_vecs (map loop_values loops)). intros fuel.
  induction fuel as [|fuel IH]; intros it; [reflexivity|]. cbn [expand_loop].
  destruct (next it) as [[[vals|] it']|e|p]; cbn [bind]; [|constructor|exact eq_refl|exact eq_refl].
  unfold rewrite_for. destruct (loop_items loops vals) as [items|e|p]; cbn [bind]; [|exact eq_refl|exact eq_refl]. specialize (IH it').
  destruct (expand_loop fuel _ loops it') as [l|e|p]; destruct (expand_loop fuel _ loops it') as [l'|e'|p']; try contradiction; cbn [bind]; try exact IH.
  constructor; [|exact IH]. destruct spec; split; reflexivity.
Qed.
Lemma blocks_said env (ast : raw_ast (list stmt)) : blocks O Y env (said_with_commas ast) = blocks O Y env ast.
Proof.
  unfold blocks. pose proof (expand_said ast) as H.
  destruct (expand (said_with_commas ast)) as [l|e|p], (expand ast) as [l'|e'|p']; try contradiction; cbn [bind]; try congruence.
  induction H as [|[s b] [s' b'] l l' [H1 H2] _ IH]; [reflexivity|]. cbn [fst snd] in *. subst b'. cbn [mapM fst snd].
  assert (Es : make_substitutions O env s = make_substitutions O env s') by (unfold make_substitutions; rewrite H1; reflexivity). rewrite Es, IH. reflexivity.
Qed.

Lemma emitted_none p b : emitted Y p [] b = forest_tokens (as_forest Y (block_tokens b)).
Proof. reflexivity. Qed.

Context (m : form) (loops : list tt) (ds : list (str * list tt)) (body : list tt) (trailing : bool) (seed first_id next_id : N).
Context (Hb : braced P) (Hf : ident_allowed P (txt "for") = false) (Hl : loop_text loops) (Hne : ds <> [])
  (HF : Forall (fun d => ident_allowed P (fst d) = true /\ self_delimiting P (known O) (snd d)) ds).
Let u c := {| u_source := separated m c loops ds body trailing; u_seed := seed; u_first_id := first_id; u_next_id := next_id |}.
Lemma use_migrated : p_ast (inv_parsed (invocation_for O P (u true))) = result_with_commas (p_ast (inv_parsed (invocation_for O P (u false)))) /\
  used_as (if has_separator m ds trailing then Some false else None) (p_ast (inv_parsed (invocation_for O P (u false)))).
Proof.
  destruct m; cbn [u separated u_source invocation_for invocation_of inv_parsed has_separator]; unfold invocation_for, invocation_of; cbn [u_source inv_parsed u].
  - apply (func_migrated P (known O)); assumption.
  - apply (func_migrated P (known O)); assumption.
  - apply (attr_migrated P (known O)); assumption.
Qed.
Lemma migrated_raised ast : p_ast (inv_parsed (invocation_for O P (u false))) = Ok (Some ast) ->
  raised (invocation_for O P (u true)) = [] /\ raised (invocation_for O P (u false)) = if has_separator m ds trailing then [semicolon_warning] else [].
Proof.
  intros E. destruct use_migrated as [E' Hu]. rewrite E in E', Hu. cbn [result_with_commas option_map used_as] in *. destruct Hu as (s & Hs & Hc). split.
  - destruct (raised_iff O P _ _ E') as [((s' & Hs' & Hc') & _)|(_ & H)]; [|exact H]. exfalso. cbn [said_with_commas ast_spec] in Hs'. rewrite Hs in Hs'. injection Hs' as <-.
    cbn in Hc'. rewrite Hc in Hc'. destruct (has_separator m ds trailing); discriminate Hc'.
  - destruct (raised_iff O P _ _ E) as [((s' & Hs' & Hc') & H)|(H' & H)]; rewrite H.
    + rewrite Hs in Hs'. injection Hs' as <-. rewrite Hc in Hc'. destruct (has_separator m ds trailing); [reflexivity|discriminate Hc'].
    + destruct (has_separator m ds trailing); [|reflexivity]. exfalso. apply H'. eauto.
Qed.
Lemma outcome_migrated p :
  (exists o, (forall c, outcome O Y p (invocation_for O P (u c)) = o) /\ forall ts, o <> Code ts) \/
  (exists bs, blocks_of O Y (invocation_for O P (u false)) bs /\ blocks_of O Y (invocation_for O P (u true)) bs /\
     outcome O Y p (invocation_for O P (u true)) = Code (concat (map (fun b => forest_tokens (as_forest Y (block_tokens b))) bs)) /\
     outcome O Y p (invocation_for O P (u false)) =
       Code (concat (map (emitted Y p (if has_separator m ds trailing then [semicolon_warning] else [])) bs))).
Proof.
  destruct use_migrated as [E' _].
  destruct (p_ast (inv_parsed (invocation_for O P (u false)))) as [[ast|]|e|x] eqn:E; cbn [result_with_commas option_map] in E'.
  2: left; exists SyntaxError; split; [intros []; unfold outcome; [rewrite E'|rewrite E]; reflexivity|discriminate].
  2: left; exists (CompileError e); split; [intros []; unfold outcome; [rewrite E'|rewrite E]; reflexivity|discriminate].
  2: left; exists (Panicked x); split; [intros []; unfold outcome; [rewrite E'|rewrite E]; reflexivity|discriminate].
  destruct (migrated_raised ast E) as [R1 R2].
  set (env := new_initialized O seed first_id).
  assert (Ho : forall c, outcome O Y p (invocation_for O P (u c)) = match blocks O Y env ast with
     | Ok bs => Code (concat (map (emitted Y p (raised (invocation_for O P (u c)))) bs)) | Err e => CompileError e | Panic x => Panicked x end).
  { intros c. unfold outcome. replace (p_ast (inv_parsed (invocation_for O P (u c)))) with (Ok (Some (if c then said_with_commas ast else ast))) by (destruct c; symmetry; [exact E'|exact E]).
    rewrite execute_blocks. change (new_initialized O (inv_seed (invocation_for O P (u c))) (inv_first_id (invocation_for O P (u c)))) with env.
    replace (blocks O Y env (if c then said_with_commas ast else ast)) with (blocks O Y env ast) by (destruct c; [symmetry; apply blocks_said|reflexivity]).
    destruct (blocks O Y env ast) as [bs|e|x]; reflexivity. }
  destruct (blocks O Y env ast) as [bs|e|x] eqn:Eb; [right|left; eexists; split; [exact Ho|discriminate]|left; eexists; split; [exact Ho|discriminate]].
  exists bs.
  assert (B : forall (c : bool), blocks O Y env (if c then said_with_commas ast else ast) = Ok bs -> blocks_of O Y (invocation_for O P (u c)) bs).
  { intros c H. unfold blocks in H. destruct (expand (if c then said_with_commas ast else ast)) as [rws| |] eqn:Ex; try discriminate H. cbn [bind] in H.
    exists (if c then said_with_commas ast else ast), rws. split; [destruct c; assumption|]. split; [exact Ex|].
    change (new_initialized O (inv_seed (invocation_for O P (u c))) (inv_first_id (invocation_for O P (u c)))) with env.
    clear - H. revert bs H. induction rws as [|rw rws IH]; intros bs H; cbn [mapM] in H; [injection H as <-; constructor|].
    destruct (make_substitutions O env (fst rw)) as [sb| |] eqn:Es; try discriminate H. cbn [bind] in H.
    destruct (AliasSubstitution.visit_block _ _ _ (snd rw)) as [b| |] eqn:Ev; try discriminate H. cbn [bind] in H.
    match type of H with context [mapM ?g rws] => destruct (mapM g rws) as [bs'| |] eqn:Em end; try discriminate H. cbn [bind] in H. injection H as <-.
    constructor; [eauto|exact (IH _ eq_refl)]. }
  split; [exact (B false Eb)|]. split; [apply (B true); rewrite blocks_said; exact Eb|]. split.
  - rewrite Ho, R1. reflexivity.
  - rewrite Ho, R2. reflexivity.
Qed.
Lemma migrated before after :
  let out c := expand_uses O P Y (before ++ u c :: after) in
  (forall i, i <> List.length before -> nth_error (out true) i = nth_error (out false) i) /\
  ((exists o, (forall c, nth_error (out c) (List.length before) = Some o) /\ forall ts, o <> Code ts) \/
   (exists bs, blocks_of O Y (invocation_for O P (u false)) bs /\ blocks_of O Y (invocation_for O P (u true)) bs /\
      nth_error (out true) (List.length before) = Some (Code (concat (map (fun b => forest_tokens (as_forest Y (block_tokens b))) bs))) /\
      nth_error (out false) (List.length before) = Some (Code (concat (map (fun b => forest_tokens (emit
        {| warnings := if has_separator m ds trailing then [semicolon_warning] else []; borrowed := 1; s_prefix := prefix_of (u_source (hd (u false) before)) |}
        (as_forest Y (block_tokens b)))) bs))))).
Proof.
  intros out.
  assert (Hp : forall c, prefix_of (u_source (u c)) = prefix_of (u_source (u false))) by (intros c; destruct m; reflexivity).
  set (p := prefix_of (u_source (hd (u false) before))).
  assert (E : forall c, out c = map (fun v => outcome O Y p (invocation_for O P v)) (before ++ u c :: after)).
  { intros c. unfold out, p. destruct before as [|b0 before]; cbn [app hd]; rewrite expand_uses_outcomes; [rewrite Hp|]; reflexivity. }
  assert (At : forall c, nth_error (out c) (List.length before) = Some (outcome O Y p (invocation_for O P (u c)))).
  { intros c. rewrite E, nth_error_map, nth_error_app2, Nat.sub_diag by lia. reflexivity. }
  split.
  - intros i Hi. rewrite !E, !map_app. cbn [map]. destruct (Nat.lt_ge_cases i (List.length before)).
    + rewrite !nth_error_app1 by (rewrite map_length; lia). reflexivity.
    + rewrite !nth_error_app2 by (rewrite map_length; lia). rewrite map_length. destruct (i - List.length before) eqn:D; [lia|]. reflexivity.
  - destruct (outcome_migrated p) as [(o & Ho & Hn)|(bs & B1 & B2 & O1 & O2)].
    + left. exists o. split; [|exact Hn]. intros c. rewrite At, Ho. reflexivity.
    + right. exists bs. split; [exact B1|]. split; [exact B2|]. rewrite !At, O1, O2. split; reflexivity.
Qed.
End Outcomes.
