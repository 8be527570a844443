(** Proofs about the spans of the generated code when keywords of items are names of aliases. *)
From Coq Require Import String.
From Verif Require Import Base BaseFacts Token Types Values Ast Env Eval Item Deprecation Interpreter Parse Macro SpecScope SpecItem SpecElab SpecMacro SpecKeywords
  SpecDeprecation SpecParse Failures SpanTokens SpanWalker SpanValues SpanEval SpanItem SpanVisitor SpanDeprecation SpanParse SpanMacro SpecSpans SpanProofs SpecSpanEval SpanEvalProofs SpecSpanItem SpanItemProofs SpecSpanMacro
  SpanMacroProofs SpecSpanUnroll SpecSpanCode SpecSpanKeywords SpanCodeProofs SpanCodeMacroProofs.
Open Scope list_scope.

Section Emit.
Context (O : oracles) (SO : soracles) (lookup : str -> option value) (salias : str -> option (list stt)) (SN : ssyntax_nodes).
Context (F : sfaithful SO SN).
Notation sub := (ssubstituted O lookup salias).
Notation code := (spieces_code sub).

Lemma code_app a b : code (a ++ b) = code a ++ code b.
Proof. apply flat_map_app. Qed.
Lemma code_nil : code [] = [].
Proof. reflexivity. Qed.
Lemma code_kw x s r : code (SKeyword x s :: r) = skw x s :: code r.
Proof. reflexivity. Qed.
Lemma code_kw_if o x : code (skeyword_if o x) = skw_if o x.
Proof. destruct o; reflexivity. Qed.
Lemma code_replaced ts r : code (SReplaced ts :: r) = sub ts ++ code r.
Proof. reflexivity. Qed.
Lemma code_enclosed d s l r : code (SEnclosed d s l :: r) = sgroup d s (code l) :: code r.
Proof. reflexivity. Qed.
Lemma kept_children {A} (visit : A -> sres A) (print : A -> list stt) (pieces : A -> list spiece) l l' :
  Forall (fun x => forall y, visit x = SOk y -> C (print y) = C (code (pieces x))) l ->
  smapM visit l = SOk l' -> C (flat_map print l') = C (code (flat_map pieces l)).
Proof.
  intros HF H. apply smapM_ok in H. induction H as [|x y l l' Hx H IH]; [reflexivity|]. inversion HF; subst. cbn [flat_map]. rewrite code_app, !C_app.
  f_equal; auto.
Qed.

Definition kept_item (i : pitem) : Prop := forall i', svisit_item O SO lookup salias SN i = SOk i' -> C (pitem_tokens i') = C (code (pitem_pieces i)).
Definition kept_stmt (s : pstmt) : Prop := forall s', svisit_stmt O SO lookup salias SN s = SOk s' -> C (pstmt_tokens s') = C (code (pstmt_pieces s)).
Definition kept_trait_item (i : ptrait_item) : Prop :=
  forall i', svisit_trait_item O SO lookup salias SN i = SOk i' -> C (ptrait_item_tokens i') = C (code (ptrait_item_pieces i)).
Definition kept_impl_item (i : pimpl_item) : Prop :=
  forall i', svisit_impl_item O SO lookup salias SN i = SOk i' -> C (pimpl_item_tokens i') = C (code (pimpl_item_pieces i)).

Ltac attrs_step E := let H := fresh "A" in pose proof (attrs_emit_tokens O SO lookup salias SN F _ _ E) as H;
  let H1 := fresh in let H2 := fresh in let H3 := fresh in let H4 := fresh in
  destruct (attrs_emit O SO lookup salias SN F _ _ E) as (_ & H1 & H2 & H3 & H4); rewrite ?H1, ?H2, ?H3, ?H4.
Ltac pieces := repeat first [rewrite code_app | rewrite code_kw | rewrite code_kw_if | rewrite code_replaced | rewrite code_enclosed | rewrite code_nil
  | rewrite sub_app | rewrite sub_sym | rewrite sub_group | rewrite sub_nil | rewrite app_nil_r | rewrite C_app | rewrite C_cons | rewrite collapsed_group].
Notation node_emit := (node_emit O SO lookup salias SN F).
Notation name_emit := (name_emit O SO lookup salias SN F).
Notation generics_emit := (generics_emit O SO lookup salias SN F).
Notation fields_emit := (fields_emit O SO lookup salias SN F).
Notation punctuated_emit := (punctuated_emit O lookup salias).
Notation other_stmt_emit := (other_stmt_emit O SO lookup salias SN F).

Lemma item_kept i : kept_item i.
Proof.
  apply (pitem_ind' kept_item kept_stmt kept_trait_item kept_impl_item); unfold kept_item, kept_stmt, kept_trait_item, kept_impl_item; clear i.
  - (* fn *) intros a v s g b IH i' H. cbn [svisit_item] in H. srun H. injection H as <-. cbn [pitem_tokens pitem_pieces]. attrs_step E.
    cbn [pattrs_tokens flat_map app]. pieces. rewrite A, (node_emit _ _ _ E0), (node_emit _ _ _ E1), (kept_children _ _ pstmt_pieces _ _ IH E2). rewrite ?app_assoc. reflexivity.
  - (* struct *) intros a v k x g f s i' H. cbn [svisit_item] in H. srun H. injection H as <-. cbn [pitem_tokens pitem_pieces]. attrs_step E.
    pieces. rewrite A, (node_emit _ _ _ E0), <- (name_emit _ _ E1). destruct (generics_emit _ _ E2) as [-> ->]. cbn [app]. rewrite <- !app_assoc.
    do 2 f_equal. f_equal. f_equal. f_equal.
    destruct (fields_emit _ _ E3) as [E3' Hf]. destruct f as [l t s'|l t s'|], r3 as [l' t' s''|l' t' s''|]; try contradiction; pieces; rewrite ?E3'; reflexivity.
  - (* enum *) intros a v k x g s l t i' H. cbn [svisit_item] in H. srun H. injection H as <-. cbn [pitem_tokens pitem_pieces]. attrs_step E.
    pieces. rewrite A, (node_emit _ _ _ E0), <- (name_emit _ _ E1). destruct (generics_emit _ _ E2) as [-> ->].
    unfold ppunctuated. rewrite (punctuated_emit pvariant_tokens "," (sep_trailing t) l r3); [rewrite <- !app_assoc; reflexivity|]. apply smapM_ok in E3. eapply Forall2_weaken; [|exact E3]. intros p q. apply variant_emit. exact F.
  - (* union *) intros a v k x g s l t i' H. cbn [svisit_item] in H. srun H. injection H as <-. cbn [pitem_tokens pitem_pieces]. attrs_step E.
    pieces. rewrite A, (node_emit _ _ _ E0), <- (name_emit _ _ E1). destruct (generics_emit _ _ E2) as [-> ->].
    unfold ppunctuated. rewrite (punctuated_emit pfield_tokens "," (sep_trailing t) l r3); [rewrite <- !app_assoc; reflexivity|]. eapply smapM_fields; [exact F|exact E3].
  - (* trait *) intros a v u au k x g c s t b l IH i' H. cbn [svisit_item] in H. srun H. injection H as <-. cbn [pitem_tokens pitem_pieces]. attrs_step E.
    cbn [pattrs_tokens flat_map app]. pieces. rewrite A, (node_emit _ _ _ E0), <- (name_emit _ _ E1). destruct (generics_emit _ _ E2) as [-> ->].
    rewrite (kept_children _ _ ptrait_item_pieces _ _ IH E4).
    assert (Hs : C (match r3 with [] => [] | _ => ssym ":" c :: ppunctuated (fun b => b) "+" t r3 end) =
                 C (sub (match s with [] => [] | _ => ssym ":" c :: ppunctuated (fun b => b) "+" t s end))).
    { apply smapM_ok in E3. assert (E3' : Forall2 (fun x y : list stt => C y = C (sub x)) s r3) by (eapply Forall2_weaken; [|exact E3]; intros p q; apply node_emit).
      pose proof (punctuated_emit (fun b => b) "+" (sep_trailing t) _ _ E3' (sep_spans t)) as Hp. unfold ppunctuated. destruct E3'; [reflexivity|]. rewrite sub_sym, !C_cons, Hp. reflexivity. }
    rewrite Hs. cbn [map app]. rewrite <- !app_assoc. reflexivity.
  - (* impl *) intros a d u k g tr ty s l IH i' H. cbn [svisit_item] in H. srun H. injection H as <-. cbn [pitem_tokens pitem_pieces]. attrs_step E.
    cbn [pattrs_tokens flat_map app]. pieces. rewrite A. destruct (generics_emit _ _ E0) as [-> ->].
    rewrite (node_emit _ _ _ E2), (kept_children _ _ pimpl_item_pieces _ _ IH E3). do 5 f_equal. f_equal.
    destruct tr as [[[bang p] fo]|]; cbn [svisit_opt fst snd] in E1; srun E1; injection E1 as <-; [|reflexivity].
    srun E4. injection E4 as <-. pieces. rewrite (node_emit _ _ _ E1). destruct bang; pieces; rewrite <- ?app_assoc; reflexivity.
  - (* mod *) intros a v u k x s l IH i' H. cbn [svisit_item] in H. srun H. injection H as <-. cbn [pitem_tokens pitem_pieces]. attrs_step E.
    srun E2. injection E2 as <-. cbn [pattrs_tokens flat_map app]. pieces. rewrite A, (node_emit _ _ _ E0), <- (name_emit _ _ E1).
    match goal with X : smapM _ l = SOk _ |- _ => rewrite (kept_children _ _ pitem_pieces _ _ IH X) end. rewrite <- ?app_assoc. reflexivity.
  - (* mod; *) intros a v u k x s i' H. cbn [svisit_item] in H. srun H. injection H as <-. cbn [pitem_tokens pitem_pieces]. attrs_step E.
    pieces. rewrite A, (node_emit _ _ _ E0), <- (name_emit _ _ E1). rewrite <- ?app_assoc. reflexivity.
  - (* foreign *) intros a u k abi s l i' H. cbn [svisit_item] in H. srun H. injection H as <-. cbn [pitem_tokens pitem_pieces]. attrs_step E.
    cbn [pattrs_tokens flat_map app]. pieces. rewrite A. do 4 f_equal.
    + destruct abi as [p|]; cbn [svisit_opt] in E0; srun E0; injection E0 as <-; [|reflexivity]. apply (abi_emit O SO lookup salias SN F) in E2. destruct p as [[v p] z].
      match type of E2 with [SLit (LStr (fst (fst ?q)) _) _] = _ => destruct q as [[v' p'] z'] end. cbn [fst snd] in E2. rewrite <- E2. reflexivity.
    + f_equal. f_equal. rewrite sub_concat. apply smapM_ok in E1. clear -E1 F. induction E1 as [|x y l l' Hx _ IH]; [reflexivity|]. cbn [map List.concat]. rewrite !C_app, IH, (node_emit _ _ _ Hx). reflexivity.
  - (* other *) intros ts i' H. cbn [svisit_item] in H. srun H. injection H as <-. cbn [pitem_tokens pitem_pieces]. pieces. exact (node_emit _ _ _ E).
  - (* statement item *) intros i IH s' H. cbn [pstmt_pieces].
    destruct i; cbn [svisit_stmt] in H; srun H; injection H as <-; cbn [pstmt_tokens]; try (apply IH; reflexivity || assumption).
    cbn [pitem_pieces]. pieces. apply other_stmt_emit. exact E.
  - intros ts s' H. cbn [svisit_stmt] in H. srun H. injection H as <-. cbn [pstmt_tokens pstmt_pieces]. pieces. apply other_stmt_emit. exact E.
  - (* trait fn *) intros a s g b IH i' H. cbn [svisit_trait_item] in H. srun H. injection H as <-. srun E1. injection E1 as <-. cbn [ptrait_item_tokens ptrait_item_pieces]. attrs_step E.
    cbn [pattrs_tokens flat_map app]. pieces. rewrite A, (node_emit _ _ _ E0), (kept_children _ _ pstmt_pieces _ _ IH E2). rewrite <- ?app_assoc. reflexivity.
  - intros a s g i' H. cbn [svisit_trait_item] in H. srun H. injection H as <-. cbn [ptrait_item_tokens ptrait_item_pieces]. attrs_step E.
    pieces. rewrite A, (node_emit _ _ _ E0). reflexivity.
  - intros k ts i' H. cbn [svisit_trait_item] in H. srun H. injection H as <-. cbn [ptrait_item_tokens ptrait_item_pieces]. pieces. exact (node_emit _ _ _ E).
  - (* impl fn *) intros a v d s g b IH i' H. cbn [svisit_impl_item] in H. srun H. injection H as <-. cbn [pimpl_item_tokens pimpl_item_pieces]. attrs_step E.
    cbn [pattrs_tokens flat_map app]. pieces. rewrite A, (node_emit _ _ _ E0), (node_emit _ _ _ E1), (kept_children _ _ pstmt_pieces _ _ IH E2). rewrite <- ?app_assoc. reflexivity.
  - intros k ts i' H. cbn [svisit_impl_item] in H. srun H. injection H as <-. cbn [pimpl_item_tokens pimpl_item_pieces]. pieces. exact (node_emit _ _ _ E).
Qed.
Lemma stmt_kept s : kept_stmt s.
Proof.
  destruct s as [i|ts]; intros s' H.
  - pose proof (item_kept i) as IH. unfold kept_item in IH. cbn [pstmt_pieces].
    destruct i; cbn [svisit_stmt] in H; srun H; injection H as <-; cbn [pstmt_tokens]; try (apply IH; assumption).
    cbn [pitem_pieces]. pieces. apply other_stmt_emit. exact E.
  - cbn [svisit_stmt] in H. srun H. injection H as <-. cbn [pstmt_tokens pstmt_pieces]. pieces. apply other_stmt_emit. exact E.
Qed.
Lemma block_kept l l' : svisit_block O SO lookup salias SN l = SOk l' -> alike (pblock_tokens l') (code (pblock_pieces l)).
Proof.
  intros H. apply (kept_children (svisit_stmt O SO lookup salias SN)); [|exact H]. apply Forall_forall. intros s _. apply stmt_kept.
Qed.
End Emit.

(** ** The pieces *)
Notation same := (fun ts : list stt => ts).
Lemma same_app a b : spieces_code same (a ++ b) = spieces_code same a ++ spieces_code same b.
Proof. apply flat_map_app. Qed.
Lemma same_kw_if o x : spieces_code same (skeyword_if o x) = skw_if o x.
Proof. destruct o; reflexivity. Qed.
Lemma same_replaced ts r : spieces_code same (SReplaced ts :: r) = ts ++ spieces_code same r.
Proof. reflexivity. Qed.
Lemma same_kw x s r : spieces_code same (SKeyword x s :: r) = skw x s :: spieces_code same r.
Proof. reflexivity. Qed.
Lemma same_enclosed d s l r : spieces_code same (SEnclosed d s l :: r) = sgroup d s (spieces_code same l) :: spieces_code same r.
Proof. reflexivity. Qed.
Lemma same_nil : spieces_code same [] = [].
Proof. reflexivity. Qed.
Lemma same_children {A} (print : A -> list stt) (pieces : A -> list spiece) (drop : A -> A) l :
  Forall (fun x => spieces_code same (pieces x) = print (drop x)) l -> spieces_code same (flat_map pieces l) = flat_map print (map drop l).
Proof. induction 1 as [|x l H _ IH]; [reflexivity|]. cbn [flat_map map]. rewrite same_app, H, IH. reflexivity. Qed.
Ltac same_pieces := repeat first [rewrite same_app | rewrite same_kw | rewrite same_kw_if | rewrite same_replaced | rewrite same_enclosed | rewrite same_nil];
  cbn [app]; rewrite ?app_nil_r, <- ?app_assoc.
Lemma pitem_printed i : spieces_code same (pitem_pieces i) = pitem_tokens (pdrop_where i).
Proof.
  apply (pitem_ind' (fun i => spieces_code same (pitem_pieces i) = pitem_tokens (pdrop_where i))
    (fun s => spieces_code same (pstmt_pieces s) = pstmt_tokens (pdrop_where_stmt s))
    (fun s => spieces_code same (ptrait_item_pieces s) = ptrait_item_tokens (pdrop_where_trait_item s))
    (fun s => spieces_code same (pimpl_item_pieces s) = pimpl_item_tokens (pdrop_where_impl_item s))); clear i; intros;
    cbn [pitem_pieces pstmt_pieces ptrait_item_pieces pimpl_item_pieces pdrop_where pdrop_where_stmt pdrop_where_trait_item pdrop_where_impl_item
         pitem_tokens pstmt_tokens ptrait_item_tokens pimpl_item_tokens pno_where_generics pg_params pg_where]; same_pieces; try reflexivity;
    try (rewrite (same_children _ _ _ _ H); try reflexivity).
  - destruct f; cbn [app]; rewrite ?app_nil_r; reflexivity.
  - destruct tr as [[[bang p] fo]|]; same_pieces; reflexivity.
  - exact H.
Qed.
Lemma pblock_printed l : spieces_code same (pblock_pieces l) = pblock_tokens (map pdrop_where_stmt l).
Proof.
  unfold pblock_pieces, pblock_tokens. apply same_children, Forall_forall. intros s _. destruct s as [i|ts]; [apply pitem_printed|apply app_nil_r].
Qed.

Lemma erase_keyword_if o x : map erase_piece (skeyword_if o x) = keyword_if (is_some o) x.
Proof. destruct o; reflexivity. Qed.
Lemma erase_children {A B} (pieces : A -> list spiece) (pieces' : B -> list piece) (e : A -> B) l :
  Forall (fun x => map erase_piece (pieces x) = pieces' (e x)) l -> map erase_piece (flat_map pieces l) = flat_map pieces' (map e l).
Proof. induction 1 as [|x l H _ IH]; [reflexivity|]. cbn [flat_map map]. rewrite map_app, H, IH. reflexivity. Qed.
Ltac erasing := repeat first [rewrite map_app | rewrite map_cons' | rewrite erase_keyword_if | rewrite erase_pattrs | rewrite erase_outer | rewrite erase_inner];
  cbn [erase_piece map].
Lemma pitem_erased i : map erase_piece (pitem_pieces i) = item_pieces (erase_item i).
Proof.
  apply (pitem_ind' (fun i => map erase_piece (pitem_pieces i) = item_pieces (erase_item i))
    (fun s => map erase_piece (pstmt_pieces s) = stmt_pieces (erase_stmt s))
    (fun s => map erase_piece (ptrait_item_pieces s) = trait_item_pieces (erase_trait_item s))
    (fun s => map erase_piece (pimpl_item_pieces s) = impl_item_pieces (erase_impl_item s))); clear i; intros;
    cbn [pitem_pieces pstmt_pieces ptrait_item_pieces pimpl_item_pieces erase_item erase_stmt erase_trait_item erase_impl_item
         item_pieces stmt_pieces trait_item_pieces impl_item_pieces]; erasing; erasing; try reflexivity;
    try (rewrite (erase_children _ _ _ _ H); try reflexivity).
  - destruct f as [l t s'|l t s'|]; cbn [erase_fields]; rewrite ?erase_pfields; reflexivity.
  - cbn [sgroup erase map]. unfold ppunctuated. rewrite (erase_punctuated _ variant_tokens erase_variant) by (intros; apply erase_pvariant). reflexivity.
  - cbn [sgroup erase map]. unfold ppunctuated. rewrite (erase_punctuated _ field_tokens erase_field) by (intros; apply erase_pfield). reflexivity.
  - destruct s as [|s0 s]; [reflexivity|]. cbn [map erase ssym]. unfold ppunctuated. rewrite (erase_punctuated _ (fun b => b) (map erase)) by reflexivity. reflexivity.
  - destruct tr as [[[[b|] p] fo]|]; reflexivity.
  - rewrite concat_erase. destruct abi as [[[v p] s']|]; reflexivity.
  - assumption.
Qed.
Lemma pblock_erased l : map erase_piece (pblock_pieces l) = block_pieces (map erase_stmt l).
Proof.
  unfold pblock_pieces, block_pieces. apply erase_children, Forall_forall. intros s _. destruct s as [i|ts]; [apply pitem_erased|reflexivity].
Qed.

(** ** Uses *)
Section Code.
Context (O : oracles) (SO : soracles) (P : parsers) (SP : sparsers) (SY : ssyntax) (LP : spanless_parsers P SP)
  (F : sfaithful SO (snodes SY)) (V : scovers SY).
Lemma suses_kept uses : Forall2 (fun u o => forall ast ts, o = SCode ts ->
    sp_ast (sinv_parsed (sinvocation_for O P SP u)) = inl ast ->
    exists rs codes mid, has_rounds ast rs /\
      Forall2 (fun items code => skept_code O SO (new_initialized O (su_seed u) (su_first_id u)) (sa_block ast) items = SOk code) rs codes /\
      alike mid (List.concat codes) /\
      ((semicolons ast /\ exists prefix, decorated (with_prefix prefix semicolon_warning) mid ts) \/ (~ semicolons ast /\ ts = mid)))
  uses (sexpand_uses O SO P SP SY uses).
Proof.
  assert (Hround : forall seed k s block items ts (rw : salias_spec * list pstmt), ss_items (fst rw) = items -> snd rw = block ->
    NoDup (item_ids (erase_spec items)) -> True ->
    sexecute_block_rewrite O SO SY (new_initialized O seed k) (Some s) rw = SOk ts ->
    exists code mid, skept_code O SO (new_initialized O seed k) block items = SOk code /\ alike mid code /\ adds s mid ts).
  { intros seed k s block items ts rw <- <- Hn _ E. unfold sexecute_block_rewrite in E. rewrite smake_substitutions_spec in E by exact Hn. unfold skept_code.
    destruct (sbindings O SO (new_initialized O seed k) (ss_items (fst rw))) as [bs|f z|p]; [|discriminate|discriminate]. cbn [sbind] in *. unfold ssubstitute in E.
    match type of E with sbind ?v _ = _ => destruct v as [b'|f z|p] eqn:Ev; [|discriminate|discriminate] end. cbn [sbind] in E. injection E as <-.
    destruct (emit_adds SY V s (pblock_tokens b')) as (mid & H1 & H2). eexists. exists mid. split; [reflexivity|]. split; [|exact H2].
    eapply alike_trans; [exact H1|]. exact (block_kept O SO _ _ (snodes SY) F _ _ Ev). }
  pose proof (uses_rounds O SO P SP SY LP (fun _ => True) (skept_code O SO) (fun _ _ _ H => H) Hround uses) as H.
  eapply Forall2_weaken; [|exact H]. intros u o Hu ast ts Ho Ea. exact (Hu ast ts Ho Ea I).
Qed.
End Code.
