(** Conversions one after the other. *)
From Coq Require Import String.
From Verif Require Import Base BaseFacts Token Types Values Ast Env Item Deprecation Interpreter Parse Macro SpecProduct
  SpecElab SpecScope SpecPrograms SpecParse SpecSubst SpecItem SpecDeprecation SpecMacro SpecRepro SpecCalls SpecFunctions SpecStrings SpecInvisible SpecNested SpecEitherOrder SpecConvertTwice
  ElabFacts ElabProofs BuiltinFacts CallFacts FunctionProofs NamingProofs MeaningProofs NestedProofs EitherOrderProofs DistinctProofs.
Open Scope list_scope.

Lemma cast_reading O seed t raw v : target t ->
  call_meaning O seed (cast_name t) raw [v] = match read_tokens O t (to_tokens v) with Some w => Ok w | None => Err TypeError end.
Proof. intros H. unfold target in H. cbn [In] in H. destruct H as [<-|[<-|[<-|[<-|[<-|[<-|[<-|[]]]]]]]]; reflexivity. Qed.
Theorem cast_again O seed t raw raw' v w : rereads O -> target t -> call_meaning O seed (cast_name t) raw [v] = Ok w -> call_meaning O seed (cast_name t) raw' [w] = Ok w.
Proof.
  intros R Ht. rewrite !cast_reading by assumption. generalize (to_tokens v) as ts. intros ts H.
  destruct (read_tokens O t ts) as [w'|] eqn:E; [|discriminate]. injection H as ->. enough (K : read_tokens O t (to_tokens w) = Some w) by (rewrite K; reflexivity).
  unfold target in Ht. cbn [In] in Ht. destruct Ht as [<-|[<-|[<-|[<-|[<-|[<-|[<-|[]]]]]]]]; cbn [read_tokens] in *.
  - destruct (parse_lit_str O ts) as [[x s]|] eqn:Es.
    + destruct (parse_str_ident O x) as [y|] eqn:Ey; [|discriminate]. injection E as <-. cbn [to_tokens]. rewrite (rr_name_no_str O R), (rr_text O R _ _ Ey). reflexivity.
    + destruct (parse_ident O ts) as [y|] eqn:Ey; [|discriminate]. injection E as <-. cbn [to_tokens]. rewrite (rr_name_no_str O R), (rr_ident O R _ _ Ey). reflexivity.
  - destruct (parse_path O ts) as [p|] eqn:Ep; [|discriminate]. injection E as <-. cbn [to_tokens]. rewrite (rr_path O R _ _ Ep). reflexivity.
  - destruct (parse_type O ts) as [p|] eqn:Ep; [|discriminate]. injection E as <-. cbn [to_tokens]. rewrite (rr_type O R _ _ Ep). reflexivity.
  - destruct (Values.parse_expr O ts) as [p|] eqn:Ep; [|discriminate]. injection E as <-. cbn [to_tokens]. rewrite (rr_expr O R _ _ Ep). reflexivity.
  - destruct (parse_ident O ts) as [x|] eqn:Ex.
    + injection E as <-. cbn [to_tokens]. rewrite (rr_str_no_name O R), (rr_new_str O R). reflexivity.
    + destruct (parse_lit_str O ts) as [[x s]|] eqn:Es; [|discriminate]. injection E as <-. cbn [to_tokens fst snd]. rewrite (rr_str_no_name O R), (rr_str O R _ _ _ Es). reflexivity.
  - destruct (parse_lit_int O ts) as [[d r]|] eqn:Ei; [|discriminate]. injection E as <-. cbn [to_tokens fst snd]. rewrite (rr_int O R _ _ _ Ei). reflexivity.
  - injection E as <-. reflexivity.
Qed.
Theorem cast_through O seed t raw raw' t' v w : prints_read O -> transparent_target t -> target t' -> all_visible (to_tokens v) = true ->
  call_meaning O seed (cast_name t) raw [v] = Ok w -> call_meaning O seed (cast_name t') raw' [w] = call_meaning O seed (cast_name t') raw' [v].
Proof.
  intros R Ht Ht' Hv. assert (T : target t). { unfold target, transparent_target in *. cbn [In] in *. intuition. }
  rewrite !cast_reading by assumption. intros H. enough (K : to_tokens w = to_tokens v) by (rewrite K; reflexivity). revert Hv H. generalize (to_tokens v) as ts. intros ts Hv H.
  unfold transparent_target in Ht. cbn [In] in Ht. destruct Ht as [<-|[<-|[<-|[<-|[]]]]]; cbn [read_tokens] in H.
  - destruct (parse_path O ts) as [p|] eqn:E; [|discriminate]. injection H as <-. exact (R ts p Hv (or_introl E)).
  - destruct (parse_type O ts) as [p|] eqn:E; [|discriminate]. injection H as <-. exact (R ts p Hv (or_intror (or_introl E))).
  - destruct (Values.parse_expr O ts) as [p|] eqn:E; [|discriminate]. injection H as <-. exact (R ts p Hv (or_intror (or_intror E))).
  - injection H as <-. reflexivity.
Qed.
Theorem name_and_string O seed raw raw' x s : rereads O -> parse_ident O [TIdent x] = Some x -> parse_str_ident O x = Some x -> parse_lit_str O [TLit (LStr x s)] = Some (x, s) ->
  call_meaning O seed (cast_name TyLitStr) raw [VIdent x] = Ok (VLitStr x []) /\ call_meaning O seed (cast_name TyIdent) raw' [VLitStr x s] = Ok (VIdent x).
Proof.
  intros R Hx Hs Hl. rewrite !cast_reading by (unfold target; cbn [In]; intuition). cbn [read_tokens to_tokens]. rewrite Hx, Hl, Hs. split; reflexivity.
Qed.

Section Definitions.
Context (O : oracles) (seed first : N).
Notation env := (new_initialized O seed first).

Lemma twice_bound items pre b t id k v raw mid c t' id' k' raw' post bs :
  items = pre ++ (b, ECall id (cast_name t) (plain [(k, v)]) raw) :: mid ++ (c, ECall id' (cast_name t') (plain [(k', VIdent b)]) raw') :: post ->
  bindings O env items = Ok bs ->
  exists bs0 w w', bindings O env pre = Ok bs0 /\ assoc_str b bs = Some w /\ assoc_str c bs = Some w' /\
    call_meaning O seed (cast_name t) (option_map snd raw) [lookup_value bs0 v] = Ok w /\ call_meaning O seed (cast_name t') (option_map snd raw') [w] = Ok w'.
Proof.
  intros -> H. pose proof H as H'. destruct (call_value O seed first _ _ _ _ _ _ _ _ H) as (b1 & w & b2 & E & H1 & Hw & Hn). cbn [map snd] in Hw.
  change (pre ++ (b, ECall id (cast_name t) (plain [(k, v)]) raw) :: mid ++ (c, ECall id' (cast_name t') (plain [(k', VIdent b)]) raw') :: post)
    with (pre ++ ((b, ECall id (cast_name t) (plain [(k, v)]) raw) :: mid) ++ (c, ECall id' (cast_name t') (plain [(k', VIdent b)]) raw') :: post) in H'.
  rewrite app_assoc in H'. destruct (call_value O seed first _ _ _ _ _ _ _ _ H') as (b3 & w' & b4 & E' & H3 & Hw' & Hn'). cbn [map snd] in Hw'.
  destruct (call_value O seed first _ _ _ _ _ _ _ _ H3) as (b5 & u & b6 & E5 & H5 & Hu & _). rewrite H1 in H5. injection H5 as <-.
  cbn [map snd] in Hu. rewrite Hw in Hu. injection Hu as <-.
  assert (Eb : forall q, assoc_str b (b1 ++ (b, w) :: q) = Some w). { intros q. apply assoc_in_middle. rewrite (bindings_names O env _ _ H1). exact Hn. }
  exists b1, w, w'. split; [exact H1|]. split; [rewrite E; apply Eb|]. split.
  { rewrite E'. apply assoc_in_middle. rewrite (bindings_names O env _ _ H3). exact Hn'. }
  split; [exact Hw|]. rewrite <- Hw'. rewrite E5. cbn [lookup_value]. rewrite Eb. reflexivity.
Qed.
Lemma round_own {B} (ast : raw_ast B) rs items : all_some (rounds ast) = Some rs -> In items rs -> exists loops, items = loops ++ own_items ast.
Proof.
  unfold rounds. destruct (ast_loops ast) as [loops|]; [|intros H; injection H as <-; intros [<-|[]]; exists []; reflexivity].
  generalize (all_combinations (map loop_values loops)) as cs. intros cs. revert rs. induction cs as [|x cs IH]; intros rs H Hin; cbn [map all_some] in H; [injection H as <-; destruct Hin|].
  destruct (all_matched _ x) as [l|]; cbn [option_map] in H; [|discriminate]. destruct (all_some _) as [rs'|]; [|discriminate]. injection H as <-.
  destruct Hin as [<-|Hin]; [exists l; reflexivity|exact (IH rs' eq_refl Hin)].
Qed.
Lemma rounds_each {B} (ast : raw_ast B) bss bs : round_bindings O env ast = Ok bss -> In bs bss -> exists loops, bindings O env (loops ++ own_items ast) = Ok bs.
Proof.
  unfold round_bindings. intros H Hi. destruct (all_some (rounds ast)) as [rs|] eqn:E; [|discriminate].
  assert (Hr : exists items, In items rs /\ bindings O env items = Ok bs).
  { clear E. revert bss H Hi. induction rs as [|items rs IH]; intros bss H Hi; cbn [mapM] in H; [injection H as <-; destruct Hi|].
    apply bind_Ok in H as (b & Hb & H). apply bind_Ok in H as (r & Hr & H). injection H as <-. destruct Hi as [<-|Hi]; [exists items; split; [left; reflexivity|exact Hb]|].
    destruct (IH r Hr Hi) as (it & H1 & H2). exists it. split; [right; exact H1|exact H2]. }
  destruct Hr as (items & Hin & Hb). destruct (round_own ast rs items E Hin) as (loops & ->). exists loops. exact Hb.
Qed.
End Definitions.

Theorem use_again O P Y seed ast b t v d ts uses i c : faithful O (reparse Y) -> covers Y -> (forall x, In x item_keywords -> ~ In x (ast_aliases ast)) ->
  rereads O -> target t -> converts_twice ast b t v d t -> yields O P Y ast seed ts uses i c ->
  exists bss, c = flat_map (fun bs => substituted O (fun x => assoc_str x bs) ts) bss /\ forall bs, In bs bss -> assoc_str d bs = assoc_str b bs /\ assoc_str b bs <> None.
Proof.
  intros Hfa Hco Hk R Ht (pre & id & k & raw & mid & id' & k' & raw' & post & HI) Hy. destruct (yields_code O P Y seed _ _ _ _ _ Hfa Hco Hk Hy) as (bss & Hb & -> & _). exists bss. split; [reflexivity|].
  intros bs Hin. destruct (rounds_each O seed 0 ast bss bs Hb Hin) as (loops & H). rewrite HI, app_assoc in H.
  destruct (twice_bound O seed 0 _ _ _ _ _ _ _ _ _ _ _ _ _ _ _ _ eq_refl H) as (bs0 & w & w' & _ & E1 & E2 & K1 & K2).
  rewrite (cast_again O seed t _ (option_map snd raw') _ _ R Ht K1) in K2. injection K2 as <-. rewrite E1, E2. split; [reflexivity|discriminate].
Qed.
