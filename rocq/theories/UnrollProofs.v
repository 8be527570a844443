(** Proofs about unrolled loops. *)
From Coq Require Import String.
From Verif Require Import Base BaseFacts Token Types Values Ast Env Item Expand Resolve Eval AliasSubstitution Deprecation Interpreter Parse Macro
  SpecProduct SpecElab SpecPrograms SpecParse SpecDeprecation SpecMacro SpecRepro SpecForms SpecUnroll
  ParseProofs ParseIds SeparatorProofs InterpreterProofs MacroProofs MeaningProofs ReproProofs FormProofs.
Open Scope list_scope.

(** ** Inputs *)
Section Rounds.
Context (O : oracles) (Y : syntax).

Lemma round_execute env t block items :
  execute O Y env t (round_ast block items) =
  execute_block_rewrite O Y env t ({| spec_items := items; is_comma_used := Some true |}, block).
Proof.
  unfold execute, expand, round_ast. cbn [ast_loops ast_spec ast_block bind mapM].
  destruct (execute_block_rewrite _ _ _ _ _); [|reflexivity|reflexivity]. cbn [bind concat]. rewrite app_nil_r. reflexivity.
Qed.
Lemma rewrite_with_items env t block items rw : with_items block items rw ->
  execute_block_rewrite O Y env t rw = execute O Y env t (round_ast block items).
Proof. intros (<- & <-). rewrite round_execute. reflexivity. Qed.

Lemma execute_rounds env t ast : execute O Y env t ast =
  match all_some (rounds ast) with
  | Some rs => in_sequence (map (fun items => execute O Y env t (round_ast (ast_block ast) items)) rs)
  | None => Err TypeError
  end.
Proof.
  unfold execute at 1. pose proof (expand_rounds ast) as H. destruct (all_some (rounds ast)) as [rs|]; [|rewrite H; reflexivity].
  destruct H as (rws & -> & HF). cbn [bind]. induction HF as [|items rw rs rws Hw HF IH]; [reflexivity|].
  cbn [map in_sequence mapM]. rewrite <- IH, (rewrite_with_items _ _ _ _ _ Hw). destruct (execute O Y env t (round_ast (ast_block ast) items)); [|reflexivity|reflexivity].
  cbn [bind]. destruct (mapM _ rws); reflexivity.
Qed.
End Rounds.

(** ** Parsing *)
Section Parsing.
Context (P : parsers) (hf : str -> bool) (Hw : within P).
Let ann' := ann P hf.

Lemma terminated_skip {A} (item : N -> list atok -> N * option (A * nat)) k : forall l n,
  parse_terminated item l (Some k) n = parse_terminated item (skipn k l) (Some 0) n.
Proof. induction k as [|k IH]; intros l n; [reflexivity|]. destruct l as [|t r]; [reflexivity|]. cbn [skipn]. rewrite <- IH. reflexivity. Qed.

Lemma terminated_item {A} (item : N -> list atok -> N * option (A * nat)) l n a k n1 : item n l = (n1, Some (a, S k)) -> l <> [] ->
  parse_terminated item l None n =
  (let (n2, rest) := parse_terminated item (skipn (S k) l) (Some 0) n1 in (n2, option_map (cons a) rest)).
Proof. intros H Hl. destruct l as [|t r]; [congruence|]. cbn [parse_terminated skipn]. rewrite H. rewrite (terminated_skip item k r). reflexivity. Qed.

Lemma source_value n v n' e tail : one_value P hf v -> expr_at P hf n v = (n', (e, List.length v, false)) -> tail = [] \/ (exists tl, tail = comma :: tl /\ ignores P v tl) ->
  parse_source_value P hf n (map ann' (v ++ tail)) = (n', Some (LSValue e, false, List.length v)).
Proof.
  intros (Hne & Hp & _) He Ht.
  assert (E : parse_expr P hf n (map ann' (v ++ tail)) = (n', (e, List.length v, false))).
  { destruct Ht as [-> |(tl & -> & Ht)]; [rewrite app_nil_r; exact He|]. unfold ann'. rewrite (expr_alike P hf Hw n v tl Ht). exact He. }
  unfold parse_source_value. rewrite E. destruct v as [|t v]; [congruence|]. cbn [app map]. pose proof (ann_tok P hf t) as Hk. fold ann' in Hk.
  destruct (ann' t) as [t0 f1 f2 f3]. cbn in Hk. subst t0. destruct t as [x|c j|l|[| | |] ts]; try reflexivity. exfalso. exact (Hp ts v eq_refl).
Qed.

Definition reads_as (v : list tt) (e : expr) : Prop := forall m, exists m' e', expr_at P hf m v = (m', (e', List.length v, false)) /\ erase e' = erase e.
Lemma value_reads n v n' e : expr_at P hf n v = (n', (e, List.length v, false)) -> reads_as v e.
Proof.
  intros H m. pose proof (expr_same P hf m n (map ann' v) (ann_all P hf v)) as Hs. unfold expr_at in *. fold ann' in H |- *. rewrite H in Hs.
  destruct (parse_expr P hf m (map ann' v)) as [m' [[e' k'] u']]. cbn in Hs. injection Hs as He -> ->. eauto.
Qed.

Lemma joined_nonempty rest vs : loop_values_in P hf rest vs -> vs <> [] -> joined vs <> [].
Proof. destruct vs as [|v [|w vs]]; [congruence|intros ((H & _) & _) _; exact H|]. intros _ _. cbn [joined]. destruct v; discriminate. Qed.

Lemma list_reads rest vs : loop_values_in P hf rest vs -> forall n, exists n' es,
  parse_terminated (parse_source_value P hf) (map ann' (joined vs)) None n = (n', Some (map (fun e => (LSValue e, false)) es)) /\ Forall2 reads_as vs es.
Proof.
  induction vs as [|v vs IH]; intros H n; [exists n, []; split; [reflexivity|constructor]|].
  destruct H as (Hv & Hr & Hj & Hvs). destruct (proj2 (proj2 Hv) n) as (n1 & e & He).
  assert (Hl : exists k, List.length v = S k) by (destruct v; [destruct Hv; congruence|eexists; reflexivity]). destruct Hl as (k & Hk).
  destruct vs as [|w vs].
  - cbn [joined]. assert (E := source_value n v n1 e [] Hv He (or_introl eq_refl)). rewrite app_nil_r, Hk in E.
    rewrite (terminated_item _ _ _ _ _ _ E) by (destruct v; [discriminate Hk|discriminate]). rewrite <- Hk. unfold ann'. rewrite skipn_ann, skipn_all.
    exists n1, [e]. split; [reflexivity|]. constructor; [exact (value_reads _ _ _ _ He)|constructor].
  - destruct Hj as [Hj|Hj]; [discriminate Hj|]. change (joined (v :: w :: vs)) with (v ++ comma :: joined (w :: vs)).
    assert (E := source_value n v n1 e (comma :: joined (w :: vs)) Hv He (or_intror (ex_intro _ _ (conj eq_refl Hj)))). rewrite Hk in E.
    rewrite (terminated_item _ _ _ _ _ _ E) by (destruct v; [discriminate Hk|discriminate]). rewrite <- Hk. unfold ann'. rewrite skipn_ann.
    rewrite skipn_app, skipn_all, Nat.sub_diag. cbn [skipn app]. fold ann'.
    destruct (IH Hvs n1) as (n2 & es & Hes & HF).
    assert (E2 : parse_terminated (parse_source_value P hf) (map ann' (comma :: joined (w :: vs))) (Some 0) n1 = (n2, Some (map (fun e => (LSValue e, false)) es))) by exact Hes.
    rewrite E2. exists n2, (e :: es). split; [reflexivity|]. constructor; [exact (value_reads _ _ _ _ He)|exact HF].
Qed.

Lemma flags_none (es : list expr) : any_unexpected (map (fun e => (LSValue e, false)) es) = (map LSValue es, false).
Proof. unfold any_unexpected. rewrite map_map. cbn [fst]. f_equal. induction es as [|e es IH]; [reflexivity|exact IH]. Qed.

(** The header of the loop. *)
Lemma loop_reads n x vs rest : ident_allowed P x = true -> not_for rest -> loop_values_in P hf rest vs ->
  exists n1 es, Forall2 reads_as vs es /\
    parse_loops P hf (map ann' (loop_text x vs ++ rest)) n =
      (n1, Some ([{| loop_pattern := LASimple x; loop_values := map LSValue es |}], map ann' rest, false)).
Proof.
  intros Hx Hr Hv. destruct (list_reads rest vs Hv n) as (n1 & es & Hes & HF). exists n1, es. split; [exact HF|].
  unfold loop_text. cbn [app map]. unfold ann' at 1 2 3 4. cbn [ann]. cbn [parse_loops a_tok]. change (is_word (txt "for") (TIdent (txt "for"))) with true. cbv iota.
  cbn [parse_loop_alias a_tok]. unfold parse_loop_alias. cbn [a_tok]. rewrite Hx. change (is_word (txt "in") (TIdent (txt "in"))) with true. cbv iota.
  unfold parse_source_list. cbn [a_tok]. fold ann'. rewrite Hes. cbn [option_map]. rewrite flags_none.
  assert (E : parse_loops P hf (map ann' rest) n1 = (n1, Some ([], map ann' rest, false))).
  { destruct rest as [|t r]; [reflexivity|]. cbn [map parse_loops]. unfold ann' at 1. rewrite ann_tok. unfold not_for in Hr. rewrite Hr. reflexivity. }
  rewrite E. reflexivity.
Qed.

(** A list of definitions after a comma. *)
Definition commas (o : option (list spec_item * option bool * list atok * bool)) :=
  match o with
  | Some (items, Some false, _, _) => None
  | Some (items, _, rest, u) => Some (items, Some true, rest, u)
  | None => None
  end.
Lemma used_sticks l : forall skip c n items used rest u, snd (parse_spec P hf l skip (Some c) n) = Some (items, used, rest, u) -> used = Some c.
Proof.
  induction l as [|t r IH]; intros skip c n items used rest u H.
  - destruct skip as [[|k]|]; cbn in H; [injection H as _ <- _ _; reflexivity..|discriminate].
  - destruct skip as [[|k]|]; cbn [parse_spec] in H; [|eapply IH; exact H|].
    + destruct (is_separator _); [|discriminate H]. destruct (Bool.eqb c (is_comma (a_tok t))) eqn:E; [|discriminate H]. apply Bool.eqb_prop in E as ->. cbn [negb] in H.
      destruct (peek_ident P r); [eapply IH; exact H|]. injection H as _ <- _ _. reflexivity.
    + destruct (parse_spec_item P hf n (t :: r)) as [n1 [[[d [|k]] u1]|]]; try discriminate H.
      destruct (parse_spec P hf r (Some k) (Some c) n1) as [n2 [[[[its us] l1] w]|]] eqn:E; [|discriminate H].
      cbn in H. injection H as _ <- _ _. apply (IH (Some k) c n1 its us l1 w). rewrite E. reflexivity.
Qed.
Lemma spec_after_comma l : forall skip n, snd (parse_spec P hf l skip (Some true) n) = commas (snd (parse_spec P hf l skip None n)).
Proof.
  induction l as [|t r IH]; intros skip n; [destruct skip as [[|k]|]; reflexivity|].
  destruct skip as [[|k]|]; cbn [parse_spec].
  - destruct (is_separator _); [|reflexivity]. destruct (is_comma (a_tok t)); cbn [Bool.eqb negb].
    + destruct (peek_ident P r); [|reflexivity]. destruct (snd (parse_spec P hf r None (Some true) n)) as [[[[its us] l1] w]|] eqn:E; [|reflexivity].
      rewrite (used_sticks _ _ _ _ _ _ _ _ E). reflexivity.
    + destruct (peek_ident P r); [|reflexivity]. destruct (snd (parse_spec P hf r None (Some false) n)) as [[[[its us] l1] w]|] eqn:E; [|reflexivity].
      rewrite (used_sticks _ _ _ _ _ _ _ _ E). reflexivity.
  - apply IH.
  - destruct (parse_spec_item P hf n (t :: r)) as [n1 [[[d [|k]] u1]|]]; try reflexivity. specialize (IH (Some k) n1).
    destruct (parse_spec P hf r (Some k) (Some true) n1) as [n2 o2], (parse_spec P hf r (Some k) None n1) as [n3 o3]. cbn [snd] in *. rewrite IH.
    destruct o3 as [[[[its [[|]|]] l1] w]|]; reflexivity.
Qed.
Lemma spec_suffix len : forall s skip used n items used' rest u, List.length s <= len ->
  snd (parse_spec P hf (map ann' s) skip used n) = Some (items, used', rest, u) -> exists a r, s = a ++ r /\ rest = map ann' r.
Proof.
  induction len as [|len IH]; intros s skip used n items used' rest u Hl H.
  { destruct s; [|cbn in Hl; lia]. destruct skip as [[|k]|]; cbn in H; [injection H as _ _ <- _; exists [], []; auto..|discriminate]. }
  destruct s as [|t r]; [destruct skip as [[|k]|]; cbn in H; [injection H as _ _ <- _; exists [], []; auto..|discriminate]|].
  assert (Hr : List.length r <= len) by (cbn in Hl; lia).
  destruct skip as [[|k]|]; cbn [map parse_spec] in H.
  - destruct (is_separator _); [|discriminate H]. destruct (match used with Some u => _ | None => false end); [discriminate H|].
    destruct (peek_ident P (map ann' r)).
    + apply IH in H as (a & r' & -> & ->); [|exact Hr]. exists (t :: a), r'. auto.
    + injection H as _ _ <- _. exists [t], r. auto.
  - apply IH in H as (a & r' & -> & ->); [|exact Hr]. exists (t :: a), r'. auto.
  - change (ann' t :: map ann' r) with (map ann' (t :: r)) in H. destruct (parse_spec_item P hf n (map ann' (t :: r))) as [n1 [[[d [|k]] u1]|]]; try discriminate H.
    destruct (parse_spec P hf (map ann' r) (Some k) used n1) as [n2 [[[[its us] l1] w]|]] eqn:E; [|discriminate H]. cbn in H. injection H as _ _ <- _.
    assert (E' : snd (parse_spec P hf (map ann' r) (Some k) used n1) = Some (its, us, l1, w)) by (rewrite E; reflexivity).
    apply IH in E' as (a & r' & -> & ->); [|exact Hr]. exists (t :: a), r'. auto.
Qed.

(** The header of a round. *)
Lemma alone_reads n x v rest e : ident_allowed P x = true -> ident_allowed P (txt "for") = false -> ignores P v rest -> reads_as v e ->
  exists n1 e', erase e' = erase e /\
  parse_header P hf n (map ann' (definition_text (x, v) ++ comma :: rest)) =
  match (if peek_ident P (map ann' rest) then commas (snd (parse_spec P hf (map ann' rest) None None n1)) else Some ([], Some true, map ann' rest, false)) with
  | Some (items, used, l, u) => Some (None, Some {| spec_items := (x, e') :: items; is_comma_used := used |}, l, u)
  | None => None
  end.
Proof.
  intros Hx Hfor Hi Hre. destruct (Hre n) as (n1 & e' & He & Hee). exists n1, e'. split; [exact Hee|].
  unfold definition_text. cbn [fst snd app]. unfold parse_header.
  set (l := map ann' (TIdent x :: TPunct 61%N false :: v ++ comma :: rest)).
  assert (El : parse_loops P hf l n = (n, Some ([], l, false))).
  { unfold l. cbn [map parse_loops]. unfold ann' at 1. cbn [ann a_tok]. unfold is_word. destruct (str_eqb (txt "for") x) eqn:E; [|reflexivity].
    apply str_eqb_eq in E. subst x. congruence. }
  rewrite El. assert (Ep : peek_ident P l = true) by exact Hx. rewrite Ep.
  assert (Ei : parse_spec_item P hf n l = (n1, Some ((x, e'), S (S (List.length v)), false))).
  { unfold l. cbn [map parse_spec_item]. unfold ann' at 1 2. cbn [ann a_tok]. rewrite Hx. change (is_equals (TPunct 61%N false)) with true. cbn [andb].
    unfold ann'. rewrite (expr_alike P hf Hw n v rest Hi). unfold expr_at in He. rewrite He. rewrite skipn_ann, toks_ann, skipn_app, skipn_all, Nat.sub_diag. reflexivity. }
  rewrite parse_spec_item_eq by discriminate. rewrite Ei.
  assert (Es : skipn (S (S (List.length v))) l = ann' comma :: map ann' rest).
  { unfold l, ann'. rewrite skipn_ann. cbn [skipn]. rewrite skipn_app, skipn_all, Nat.sub_diag. reflexivity. }
  rewrite Es. unfold ann' at 1. rewrite at_separator. change (is_separator comma) with true. change (is_comma comma) with true. cbv iota.
  destruct (peek_ident P (map ann' rest)); [|reflexivity]. rewrite <- spec_after_comma.
  destruct (parse_spec P hf (map ann' rest) None (Some true) n1) as [n2 [[[[items used] l2] u]|]]; reflexivity.
Qed.

(** The macro. *)
Lemma loop_parsed n x vs rest ast : ident_allowed P x = true -> ident_allowed P (txt "for") = false -> not_for rest -> unterminated rest -> loop_values_in P hf rest vs ->
  p_ast (parse_func_macro P hf n (loop_text x vs ++ rest)) = Ok (Some ast) -> uses_semicolons (ast_spec ast) = false ->
  exists es, ast_loops ast = Some [{| loop_pattern := LASimple x; loop_values := map LSValue es |}] /\ Forall2 reads_as vs es /\
    forall m v e, reads_as v e -> ignores P v rest -> exists items,
      p_ast (parse_func_macro P hf m (definition_text (x, v) ++ comma :: rest)) = Ok (Some (round_ast (ast_block ast) items)) /\
      map_items erase items = map_items erase ((x, e) :: own_items ast).
Proof.
  intros Hx Hfor Hnf Hu Hv H Hs. destruct (loop_reads n x vs rest Hx Hnf Hv) as (n1 & es & HF & El). exists es.
  unfold parse_func_macro in H. fold ann' in H. unfold parse_header in H. rewrite El in H. cbn [fst snd] in H.
  set (S0 := if peek_ident P (map ann' rest) then
               match snd (parse_spec P hf (map ann' rest) None None n1) with
               | Some (items, used, l2, u2) => Some (Some {| spec_items := items; is_comma_used := used |}, l2, u2)
               | None => None end
             else Some (None, map ann' rest, false)).
  assert (Hsuf : forall spec l u, S0 = Some (spec, l, u) -> exists a r, rest = a ++ r /\ l = map ann' r).
  { unfold S0. intros spec l u. destruct (peek_ident P (map ann' rest)).
    - destruct (snd (parse_spec P hf (map ann' rest) None None n1)) as [[[[its us] l1] w]|] eqn:E; [|discriminate]. intros E'. injection E' as _ <- _.
      exact (spec_suffix _ _ _ _ _ _ _ _ _ (le_n _) E).
    - intros E. injection E as _ <- _. exists [], rest. auto. }
  assert (H' : exists spec l u, S0 = Some (spec, l, u) /\ ast_loops ast = Some [{| loop_pattern := LASimple x; loop_values := map LSValue es |}] /\ ast_spec ast = spec /\
            u = false /\ pre_block P (toks l) = Some (ast_block ast, List.length (toks l), false)).
  { assert (G : forall spec l u, (forall a r, rest = a ++ r -> l = map ann' r -> unterminated r) -> (exists a r, rest = a ++ r /\ l = map ann' r) ->
        p_ast (match pre_block P (toks l) with
               | None => syntax_error None
               | Some (block, k, u2) =>
                 match skipn k (toks l) with
                 | [] => {| p_scope := Some (uses_semicolons spec); p_ast := Ok (if u || u2 then None else Some {| ast_loops := Some [{| loop_pattern := LASimple x; loop_values := map LSValue es |}]; ast_spec := spec; ast_block := block |}) |}
                 | t :: r => if is_separator t && negb (trailing_mixed t spec) then
                     match r with [] => {| p_scope := Some (uses_semicolons spec); p_ast := Ok (if u || u2 then None else Some {| ast_loops := Some [{| loop_pattern := LASimple x; loop_values := map LSValue es |}]; ast_spec := spec; ast_block := block |}) |} | _ => syntax_error (Some (uses_semicolons spec)) end
                     else syntax_error (Some (uses_semicolons spec))
                 end end) = Ok (Some ast) ->
        ast_loops ast = Some [{| loop_pattern := LASimple x; loop_values := map LSValue es |}] /\ ast_spec ast = spec /\
            u = false /\ pre_block P (toks l) = Some (ast_block ast, List.length (toks l), false)).
    { intros spec l u Hun (a & r & Hr & Hlr) G. specialize (Hun a r Hr Hlr). subst l. unfold ann' in *. rewrite toks_ann in *.
      destruct (pre_block P r) as [[[block k] u2]|] eqn:Eb; [|discriminate G].
      pose proof (proj2 (proj2 (proj2 (proj2 (proj2 Hw)))) _ _ _ _ Eb) as Hk.
      destruct (skipn k r) as [|t r2] eqn:Esk.
      - assert (k = List.length r) by (apply (f_equal (@List.length _)) in Esk; rewrite skipn_length in Esk; cbn in Esk; lia). subst k.
        destruct (u || u2) eqn:Eu; [discriminate G|]. apply orb_false_iff in Eu as (-> & ->). injection G as <-. auto.
      - destruct (is_separator t) eqn:Et; [|discriminate G]. destruct (_ && _); [|discriminate G]. destruct r2; [|discriminate G].
        exfalso. assert (is_separator t = false); [|congruence]. apply (Hun (firstn k r)). rewrite <- Esk. symmetry. apply firstn_skipn. }
    unfold S0 in *. destruct (peek_ident P (map ann' rest)).
    - destruct (snd (parse_spec P hf (map ann' rest) None None n1)) as [[[[its us] l1] w]|]; [|discriminate H].
      exists (Some {| spec_items := its; is_comma_used := us |}), l1, w. split; [reflexivity|]. cbn [orb] in H.
      apply G; [intros a r -> _; exact (unterminated_suffix _ _ Hu)|exact (Hsuf _ _ _ eq_refl)|exact H].
    - exists None, (map ann' rest), false. split; [reflexivity|]. apply G; [intros a r -> _; exact (unterminated_suffix _ _ Hu)|exact (Hsuf _ _ _ eq_refl)|exact H]. }
  destruct H' as (spec & l & u & HS & Hl & Hsp & -> & Hb). split; [exact Hl|]. split; [exact HF|].
  intros m v e Hre Hi. destruct (alone_reads m x v rest e Hx Hfor Hi Hre) as (m1 & e' & Hee & Hh).
  unfold parse_func_macro. fold ann'. rewrite Hh. unfold S0 in HS.
  destruct (peek_ident P (map ann' rest)).
  - pose proof (spec_same P hf (map ann' rest) None None m1 n1 (ann_all P hf rest)) as Hsame.
    destruct (snd (parse_spec P hf (map ann' rest) None None n1)) as [[[[its us] l1] w]|]; [|discriminate HS]. injection HS as HS1 HS2 HS3. subst l1 w.
    destruct (snd (parse_spec P hf (map ann' rest) None None m1)) as [[[[its' us'] l1'] w']|]; [|discriminate Hsame]. cbn in Hsame. injection Hsame as Hit -> -> ->.
    rewrite <- HS1 in Hsp. rewrite Hsp in Hs. cbn in Hs. exists ((x, e') :: its').
    assert (Ec : commas (Some (its', us, l, false)) = Some (its', Some true, l, false)) by (destruct us as [[|]|]; [reflexivity|discriminate Hs|reflexivity]).
    rewrite Ec, Hb, skipn_all. cbn [orb p_ast]. split; [reflexivity|]. cbn [map_items map fst snd]. rewrite Hee. unfold own_items. rewrite Hsp. cbn [spec_items].
    unfold map_items in Hit. rewrite Hit. reflexivity.
  - injection HS as HS1 HS2. subst l. exists [(x, e')]. rewrite Hb, skipn_all. cbn [orb p_ast]. split; [reflexivity|]. cbn [map_items map fst snd]. rewrite Hee. unfold own_items. rewrite Hsp, <- HS1. reflexivity.
Qed.
End Parsing.

(** ** Source *)
Section Source.
Context (O : oracles) (P : parsers) (Y : syntax) (Hw : within P).

Lemma all_some_some {A B} (f : A -> B) (l : list A) : all_some (map (fun x => Some (f x)) l) = Some (map f l).
Proof. induction l as [|a l IH]; [reflexivity|]. cbn [map all_some]. rewrite IH. reflexivity. Qed.
Lemma combinations_single {A} (l : list A) : all_combinations [l] = map (fun v => [v]) l.
Proof. cbn. induction l as [|a l IH]; [reflexivity|]. cbn [flat_map map app]. rewrite <- IH. reflexivity. Qed.
Lemma single_rounds (ast : raw_ast (list stmt)) x es : ast_loops ast = Some [{| loop_pattern := LASimple x; loop_values := map LSValue es |}] ->
  all_some (rounds ast) = Some (map (fun e => (x, e) :: own_items ast) es).
Proof.
  intros H. unfold rounds. rewrite H. cbn [map loop_values loop_pattern]. rewrite combinations_single, !map_map. cbn [all_matched matched app option_map].
  apply (all_some_some (fun e => (x, e) :: own_items ast)).
Qed.

Lemma text_parsed ts u : use_text ts u -> inv_parsed (invocation_for O P u) = parse_func_macro P (known O) (u_next_id u) ts.
Proof. unfold invocation_for. intros [-> | ->]; reflexivity. Qed.

Lemma rounds_NoDup u ast rs items : p_ast (inv_parsed (invocation_for O P u)) = Ok (Some ast) -> all_some (rounds ast) = Some rs -> In items rs -> NoDup (item_ids items).
Proof.
  intros Hp Hr Hin. pose proof (expand_rounds ast) as Hx. rewrite Hr in Hx. destruct Hx as (rws & Hx & HF).
  assert (exists rw, In rw rws /\ with_items (ast_block ast) items rw) as (rw & Hrw & (_ & <-)).
  { clear -HF Hin. induction HF as [|i rw rs rws H HF IH]; [destruct Hin|]. destruct Hin as [<-|Hin]; [exists rw; split; [left; reflexivity|exact H]|].
    destruct (IH Hin) as (r & ? & ?). exists r. split; [right|]; assumption. }
  exact (proj1 (source_rewrite O P _ _ _ _ _ _ _ Hp Hx Hrw)).
Qed.

Lemma round_same p q t inv inv' s k k' block items items' : t = thread_for p inv -> raised inv = [] -> raised inv' = [] ->
  NoDup (item_ids items) -> NoDup (item_ids items') -> map_items erase items = map_items erase items' ->
  execute O Y (new_initialized O s k) t (round_ast block items) = execute O Y (new_initialized O s k') (thread_for q inv') (round_ast block items').
Proof.
  intros -> Hr Hr' Hn Hn' He. rewrite !round_execute. unfold execute_block_rewrite. cbn [fst snd].
  rewrite (substitutions_same O s s k k' {| spec_items := items; is_comma_used := Some true |} {| spec_items := items'; is_comma_used := Some true |} Hn Hn' He (or_introl eq_refl)).
  destruct (make_substitutions _ _ _); [|reflexivity|reflexivity]. cbn [bind]. unfold thread_for. rewrite Hr, Hr'. reflexivity.
Qed.

Definition as_output (r : res (list tt)) : output := match r with Ok ts => Code ts | Err e => CompileError e | Panic p => Panicked p end.
Lemma sequence_output l : as_output (in_sequence l) = outputs_in_sequence (map as_output l).
Proof. induction l as [|[a|e|p] l IH]; [reflexivity| |reflexivity|reflexivity]. cbn [in_sequence map outputs_in_sequence as_output bind]. rewrite <- IH. destruct (in_sequence l); reflexivity. Qed.

Lemma raised_none u ast : p_ast (inv_parsed (invocation_for O P u)) = Ok (Some ast) -> uses_semicolons (ast_spec ast) = false -> raised (invocation_for O P u) = [].
Proof.
  intros H Hs. destruct (raised_iff O P u ast H) as [((spec & E & Hc) & _)|(_ & Hr)]; [|exact Hr]. rewrite E in Hs. unfold uses_semicolons in Hs. rewrite Hc in Hs. discriminate Hs.
Qed.
Lemma none_raised u ast : p_ast (inv_parsed (invocation_for O P u)) = Ok (Some ast) -> raised (invocation_for O P u) = [] -> uses_semicolons (ast_spec ast) = false.
Proof.
  intros H Hs. destruct (raised_iff O P u ast H) as [(_ & Hr)|(Hn & _)]; [congruence|]. unfold uses_semicolons. destruct (ast_spec ast) as [sp|]; [|reflexivity].
  destruct (is_comma_used sp) as [[|]|] eqn:E; try reflexivity. exfalso. apply Hn. eauto.
Qed.

Lemma uses_unrolled uses i u us x vs rest ast :
  ident_allowed P x = true -> ident_allowed P (txt "for") = false -> not_for rest -> unterminated rest -> loop_values_in P (known O) rest vs ->
  nth_error uses i = Some u -> use_text (loop_text x vs ++ rest) u ->
  p_ast (inv_parsed (invocation_for O P u)) = Ok (Some ast) -> raised (invocation_for O P u) = [] ->
  Forall2 (fun v u' => use_text (definition_text (x, v) ++ comma :: rest) u' /\ u_seed u' = u_seed u) vs us ->
  nth_error (expand_uses O P Y uses) i = Some (outputs_in_sequence (expand_uses O P Y us)).
Proof.
  intros Hx Hfor Hnf Hu Hv Hi Ht Hp Hr HF. rewrite (use_output O P Y uses i u Hi). f_equal.
  set (p := prefix_of (u_source (hd u uses))). unfold outcome. rewrite Hp.
  pose proof (none_raised u ast Hp Hr) as Hs. pose proof Hp as Hp'. rewrite (text_parsed _ _ Ht) in Hp'.
  destruct (loop_parsed P (known O) Hw _ x vs rest ast Hx Hfor Hnf Hu Hv Hp' Hs) as (es & Hl & Hes & Hro).
  pose proof (single_rounds ast x es Hl) as Hrs. rewrite execute_rounds, Hrs.
  change (as_output (in_sequence (map (fun items => execute O Y (new_initialized O (inv_seed (invocation_for O P u)) (inv_first_id (invocation_for O P u))) (thread_for p (invocation_for O P u)) (round_ast (ast_block ast) items))
    (map (fun e => (x, e) :: own_items ast) es))) = outputs_in_sequence (expand_uses O P Y us)).
  rewrite sequence_output, !map_map. f_equal.
  assert (Hn : Forall (fun e => NoDup (item_ids ((x, e) :: own_items ast))) es).
  { apply Forall_forall. intros e Hin. apply (rounds_NoDup u ast _ _ Hp Hrs). apply in_map_iff. eauto. }
  assert (Hig : Forall (fun v => ignores P v rest) vs).
  { clear -Hv. induction vs as [|v vs IH]; [constructor|]. destruct Hv as (_ & H & _ & Hv). constructor; [exact H|exact (IH Hv)]. }
  assert (G : forall q, map (fun e => as_output (execute O Y (new_initialized O (inv_seed (invocation_for O P u)) (inv_first_id (invocation_for O P u))) (thread_for p (invocation_for O P u)) (round_ast (ast_block ast) ((x, e) :: own_items ast)))) es =
    map (fun u' => outcome O Y q (invocation_for O P u')) us).
  { intros q. clear -HF Hes Hn Hig Hro Hr. revert us HF. induction Hes as [|v e vs es He Hes IH]; intros us HF; [inversion HF; reflexivity|].
    inversion HF as [|? u' ? us' (Ht & Hseed) HF']; subst. inversion Hn; subst. inversion Hig; subst. cbn [map]. rewrite <- (IH ltac:(assumption) ltac:(assumption) us' HF'). f_equal.
    destruct (Hro (u_next_id u') v e He ltac:(assumption)) as (items & Hpa & Hit).
    assert (Hp : p_ast (inv_parsed (invocation_for O P u')) = Ok (Some (round_ast (ast_block ast) items))) by (rewrite (text_parsed _ _ Ht); exact Hpa).
    unfold outcome. rewrite Hp. change (inv_seed (invocation_for O P u)) with (u_seed u). rewrite <- Hseed.
    rewrite (round_same p q _ (invocation_for O P u) (invocation_for O P u') (u_seed u') (inv_first_id (invocation_for O P u)) (inv_first_id (invocation_for O P u')) (ast_block ast) _ items eq_refl Hr).
    - reflexivity.
    - exact (raised_none u' _ Hp eq_refl).
    - assumption.
    - exact (rounds_NoDup u' _ [items] items Hp eq_refl (or_introl eq_refl)).
    - symmetry. exact Hit. }
  destruct us as [|u0 us]; [exact (G [])|]. rewrite expand_uses_outcomes. exact (G (prefix_of (u_source u0))).
Qed.
End Source.
