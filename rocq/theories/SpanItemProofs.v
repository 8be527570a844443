(** Items with spans: erasing the spans, and where they come from. *)
From Coq Require Import String.
From Verif Require Import Base BaseFacts Token Types Values FormatString StreamWalker SubstituteIdents SpecSubst SubstFacts Item AliasSubstitution Failures SpanTokens SpanWalker SpanValues SpanEval SpecSpans SpanProofs SpecSpanEval SpanEvalProofs SpanItem SpanVisitor SpecSpanItem.
Open Scope list_scope.

(** ** Printing *)
Lemma erase_skw_if o x : map erase (skw_if o x) = kw_if (is_some o) x.
Proof. destruct o; reflexivity. Qed.
Lemma erase_pattrs l : map erase (pattrs_tokens l) = attrs_tokens (erase_attrs l).
Proof.
  induction l as [|a l IH]; [reflexivity|]. unfold pattrs_tokens, attrs_tokens, erase_attrs in *. cbn [flat_map map]. rewrite map_app, IH.
  f_equal. unfold pattr_tokens, attr_tokens. destruct a as [s [i|] b m]; reflexivity.
Qed.
Lemma erase_outer l : erase_attrs (pouter l) = outer (erase_attrs l).
Proof. unfold erase_attrs, pouter, outer. induction l as [|a l IH]; [reflexivity|]. cbn. destruct (is_some (pa_inner a)); cbn; congruence. Qed.
Lemma erase_inner l : erase_attrs (pinner l) = inner (erase_attrs l).
Proof. unfold erase_attrs, pinner, inner. induction l as [|a l IH]; [reflexivity|]. cbn. destruct (is_some (pa_inner a)); cbn; congruence. Qed.
Lemma erase_punctuated {A B} (print : A -> list stt) (print' : B -> list tt) (f : A -> B) c t l : forall seps,
  (forall x, In x l -> map erase (print x) = print' (f x)) ->
  map erase (spunctuated print c seps t l) = punctuated print' (sym c) t (map f l).
Proof.
  induction l as [|x [|y l] IH]; intros seps H; [reflexivity| |].
  - cbn. rewrite map_app, H by (left; reflexivity). destruct t; reflexivity.
  - specialize (IH (tl seps) (fun z Hz => H z (or_intror Hz))). cbn [spunctuated punctuated map] in *. rewrite map_app. cbn [map erase ssym].
    rewrite IH, H by (left; reflexivity). reflexivity.
Qed.
Lemma erase_pfield f : map erase (pfield_tokens f) = field_tokens (erase_field f).
Proof.
  unfold pfield_tokens, field_tokens, erase_field. rewrite !map_app, erase_pattrs. cbn [f_attrs f_vis f_ident f_ty].
  destruct (pf_ident f) as [[[x s] c]|]; reflexivity.
Qed.
Lemma erase_pfields f : map erase (pfields_tokens f) = fields_tokens (erase_fields f).
Proof.
  destruct f as [l t s|l t s|]; cbn [pfields_tokens fields_tokens erase_fields map erase sgroup]; [do 2 f_equal|do 2 f_equal|reflexivity];
    (apply erase_punctuated; intros; apply erase_pfield).
Qed.
Lemma erase_pvariant v : map erase (pvariant_tokens v) = variant_tokens (erase_variant v).
Proof.
  unfold pvariant_tokens, variant_tokens, erase_variant. rewrite !map_app, erase_pattrs, erase_pfields.
  cbn [v_attrs v_ident v_fields v_disc pname_tokens map erase app]. destruct (pv_disc v) as [[s e]|]; reflexivity.
Qed.
Lemma erase_flat_map {A B} (print : A -> list stt) (print' : B -> list tt) (f : A -> B) l :
  Forall (fun x => map erase (print x) = print' (f x)) l -> map erase (flat_map print l) = flat_map print' (map f l).
Proof. induction 1 as [|x l H _ IH]; [reflexivity|]. cbn [flat_map map]. rewrite map_app, H, IH. reflexivity. Qed.

Lemma map_cons' {A B} (f : A -> B) x l : map f (x :: l) = f x :: map f l.
Proof. reflexivity. Qed.
Ltac printing := repeat first [rewrite map_app | rewrite map_cons' | rewrite erase_pattrs | rewrite erase_outer | rewrite erase_inner | rewrite erase_skw_if].
Lemma erase_pitem i : map erase (pitem_tokens i) = item_tokens (erase_item i).
Proof.
  apply (pitem_ind' (fun i => map erase (pitem_tokens i) = item_tokens (erase_item i))
                    (fun s => map erase (pstmt_tokens s) = stmt_tokens (erase_stmt s))
                    (fun i => map erase (ptrait_item_tokens i) = trait_item_tokens (erase_trait_item i))
                    (fun i => map erase (pimpl_item_tokens i) = impl_item_tokens (erase_impl_item i)));
    clear i; intros; cbn [pitem_tokens item_tokens erase_item pstmt_tokens stmt_tokens erase_stmt ptrait_item_tokens trait_item_tokens
      erase_trait_item pimpl_item_tokens impl_item_tokens erase_impl_item]; printing; try reflexivity.
  - cbn [sgroup erase map]. printing. rewrite (erase_flat_map _ _ _ _ H). reflexivity.
  - destruct f as [l t s'|l t s'|]; cbn [erase_fields]; printing; rewrite ?erase_pfields; cbn [erase_generics g_params g_where map pname_tokens app]; reflexivity.
  - cbn [sgroup erase map]. unfold ppunctuated. rewrite (erase_punctuated _ variant_tokens erase_variant) by (intros; apply erase_pvariant). reflexivity.
  - cbn [sgroup erase map]. unfold ppunctuated. rewrite (erase_punctuated _ field_tokens erase_field) by (intros; apply erase_pfield). reflexivity.
  - cbn [sgroup erase map]. printing. rewrite (erase_flat_map _ _ _ _ H). do 5 f_equal.
    cbn [pname_tokens map app erase]. do 2 f_equal. destruct s as [|s0 s]; [reflexivity|].
    cbn [map erase ssym]. unfold ppunctuated. rewrite (erase_punctuated _ (fun b => b) (map erase)) by reflexivity. reflexivity.
  - cbn [sgroup erase map]. printing. rewrite (erase_flat_map _ _ _ _ H).
    destruct tr as [[[[b|] p] fo]|]; cbn [option_map fst snd is_some]; printing; reflexivity.
  - cbn [sgroup erase map]. printing. rewrite (erase_flat_map _ _ _ _ H). reflexivity.
  - cbn [sgroup erase map]. printing. rewrite concat_erase. destruct abi as [[[v p] s']|]; reflexivity.
  - assumption.
  - cbn [sgroup erase map]. printing. rewrite (erase_flat_map _ _ _ _ H). reflexivity.
  - cbn [sgroup erase map]. printing. rewrite (erase_flat_map _ _ _ _ H). reflexivity.
Qed.
Lemma erase_pstmt s : map erase (pstmt_tokens s) = stmt_tokens (erase_stmt s).
Proof. destruct s; [apply erase_pitem|reflexivity]. Qed.
Lemma erase_pblock l : map erase (pblock_tokens l) = block_tokens (map erase_stmt l).
Proof. apply erase_flat_map, Forall_forall. intros s _. apply erase_pstmt. Qed.

(** ** Visiting *)
Lemma fbind {A B C D} (f : A -> C) (g : B -> D) (x : sres A) (k : A -> sres B) (y : res C) (k' : C -> res D) :
  forget f x = y -> (forall a, x = SOk a -> forget g (k a) = k' (f a)) -> forget g (sbind x k) = bind y k'.
Proof. intros <- H. destruct x; cbn; [apply H; reflexivity|reflexivity|reflexivity]. Qed.
Lemma forget_mapM {A B C D} (f : A -> C) (g : B -> D) (v : A -> sres B) (w : C -> res D) l :
  Forall (fun a => forget g (v a) = w (f a)) l -> forget (map g) (smapM v l) = mapM w (map f l).
Proof.
  induction 1 as [|a l H _ IH]; [reflexivity|]. cbn [smapM mapM map]. apply (fbind g); [exact H|]. intros b _. apply (fbind (map g)); [exact IH|]. reflexivity.
Qed.
Lemma forget_mapM' {A B C D} (f : A -> C) (g : B -> D) (v : A -> sres B) (w : C -> res D) l :
  (forall a, forget g (v a) = w (f a)) -> forget (map g) (smapM v l) = mapM w (map f l).
Proof. intros H. apply forget_mapM, Forall_forall. auto. Qed.

Section Erase.
Context (O : oracles) (SO : soracles) (lookup : str -> option value) (salias : str -> option (list stt)) (SN : ssyntax_nodes).
Context (reparse : kind -> list tt -> option (list tt)).
Hypothesis same : same_aliases lookup salias.
Hypothesis L : spanless O SO.
Hypothesis LN : spanless_nodes reparse SN.
Notation vnode := (svisit_node O lookup salias SN).
Notation vattrs := (svisit_attrs O lookup salias SN).

Lemma node_erase k ts : forget (map erase) (vnode k ts) = visit_node O lookup reparse k (map erase ts).
Proof. apply erase_substitute; [exact same|]. apply LN. Qed.
Lemma name_erase x : forget fst (svisit_name O SO lookup salias x) = visit_name O lookup (fst x).
Proof. unfold svisit_name, visit_name. rewrite (erase_substitute O lookup salias same _ _ (parse_ident O) fst (spanless_ident O SO L)). reflexivity. Qed.
Lemma opt_erase {A B} (f : A -> B) (v : A -> sres A) (w : B -> res B) o : (forall a, forget f (v a) = w (f a)) ->
  forget (option_map f) (svisit_opt v o) = visit_opt w (option_map f o).
Proof. intros H. destruct o as [a|]; [|reflexivity]. cbn. apply (fbind f); [apply H|]. reflexivity. Qed.
Lemma outer_erase : forall n ts, List.length ts <= n -> option_map erase_attrs (sparse_outer SN ts) = parse_outer reparse (map erase ts).
Proof.
  induction n as [|n IH]; intros [|t ts] H; [reflexivity|cbn in H; lia|reflexivity|].
  destruct t as [x s|c j s|l s|d g s]; try reflexivity. destruct ts as [|t ts]; [reflexivity|]. cbn [List.length] in H.
  destruct t as [x s'|c' j' s'|l s'|d g s']; try reflexivity. destruct d; try reflexivity.
  cbn [sparse_outer parse_outer map erase]. destruct (N.eqb c 35); [|reflexivity]. rewrite <- LN, <- IH by lia.
  destruct (sreparse SN KMeta g); [|reflexivity]. cbn [option_map]. destruct (sparse_outer SN ts); reflexivity.
Qed.
Lemma attrs_erase l : forget erase_attrs (vattrs l) = visit_attrs O lookup reparse (erase_attrs l).
Proof.
  unfold svisit_attrs, visit_attrs. rewrite <- erase_pattrs. apply erase_substitute; [exact same|].
  intros ts. apply (outer_erase (List.length ts)). lia.
Qed.
Lemma field_erase f : forget erase_field (svisit_field O SO lookup salias SN f) = visit_field O lookup reparse (erase_field f).
Proof.
  unfold svisit_field, visit_field. apply (fbind erase_attrs); [apply attrs_erase|]. intros a _.
  apply (fbind (map erase)); [apply node_erase|]. intros v _.
  apply (fbind (option_map (fun x => fst (fst x)))). { cbn [erase_field f_ident]. apply opt_erase. intros [x c]. unfold svisit_field_name. cbn [fst snd].
    pose proof (name_erase x) as H. destruct (svisit_name O SO lookup salias x); exact H. }
  intros x _. apply (fbind (map erase)); [apply node_erase|]. reflexivity.
Qed.
Lemma fields_erase f : forget erase_fields (svisit_fields O SO lookup salias SN f) = visit_fields O lookup reparse (erase_fields f).
Proof.
  destruct f as [l t s|l t s|]; cbn [svisit_fields erase_fields visit_fields]; [| |reflexivity];
    (apply (fbind (map erase_field)); [apply forget_mapM', field_erase|reflexivity]).
Qed.
Lemma generics_erase g : forget erase_generics (svisit_generics O lookup salias SN g) = visit_generics O lookup reparse (erase_generics g).
Proof. apply (fbind (map erase)); [apply node_erase|reflexivity]. Qed.
Lemma variant_erase v : forget erase_variant (svisit_variant O SO lookup salias SN v) = visit_variant O lookup reparse (erase_variant v).
Proof.
  unfold svisit_variant, visit_variant. apply (fbind erase_attrs); [apply attrs_erase|]. intros a _.
  apply (fbind fst); [apply name_erase|]. intros x _. apply (fbind erase_fields); [apply fields_erase|]. intros f _.
  apply (fbind (option_map (fun d => map erase (snd d)))); [|reflexivity]. cbn [erase_variant v_disc]. apply opt_erase. intros [s e]. cbn [fst snd].
  pose proof (node_erase KExpr e) as H. destruct (vnode KExpr e); exact H.
Qed.
Lemma other_erase ts : forget (map erase) (svisit_other_stmt O lookup salias SN ts) = visit_other_stmt O lookup reparse (map erase ts).
Proof.
  unfold svisit_other_stmt, visit_other_stmt. change [TGroup Brace (map erase ts)] with (map erase [sgroup Brace call_site ts]). rewrite <- LN.
  destruct (sreparse SN KBlock [sgroup Brace call_site ts]) as [block|]; [|reflexivity]. cbn [option_map].
  apply (fbind (map erase)); [apply node_erase|]. intros b _.
  destruct b as [|[x s|c j s|l s|d g s] [|t r]]; try reflexivity; destruct d; reflexivity.
Qed.
Lemma abi_erase l : forget fst (svisit_abi O SO lookup salias l) = visit_abi O lookup (fst l).
Proof. unfold svisit_abi, visit_abi. rewrite (erase_substitute O lookup salias same _ _ (parse_lit_str O) fst (spanless_lit_str O SO L)). reflexivity. Qed.

Notation vitem := (svisit_item O SO lookup salias SN).
Notation witem := (visit_item O lookup reparse).
Lemma item_stmt_erase i : forget erase_item (vitem i) = witem (erase_item i) ->
  forget erase_stmt (svisit_stmt O SO lookup salias SN (PSItem i)) = visit_stmt O lookup reparse (erase_stmt (PSItem i)).
Proof.
  intros H.
  assert (G : forget erase_stmt (sbind (vitem i) (fun i' => SOk (PSItem i'))) = bind (witem (erase_item i)) (fun i' => Ok (SItem i')))
    by (apply (fbind erase_item); [exact H|reflexivity]).
  assert (G' : forall ts, forget erase_stmt (svisit_stmt O SO lookup salias SN (PSOther ts)) = visit_stmt O lookup reparse (SOther (map erase ts)))
    by (intros ts; cbn [svisit_stmt visit_stmt]; apply (fbind (map erase)); [apply other_erase|reflexivity]).
  destruct i; try exact G; [|apply G']. destruct content; exact G.
Qed.
Lemma item_erase i : forget erase_item (vitem i) = witem (erase_item i).
Proof.
  apply (pitem_ind' (fun i => forget erase_item (vitem i) = witem (erase_item i))
                    (fun s => forget erase_stmt (svisit_stmt O SO lookup salias SN s) = visit_stmt O lookup reparse (erase_stmt s))
                    (fun i => forget erase_trait_item (svisit_trait_item O SO lookup salias SN i) = visit_trait_item O lookup reparse (erase_trait_item i))
                    (fun i => forget erase_impl_item (svisit_impl_item O SO lookup salias SN i) = visit_impl_item O lookup reparse (erase_impl_item i)));
    clear i; [intros a v s g b H|intros a v k x g f s|intros a v k x g s l t|intros a v k x g s l t|intros a v u au k x g c s t b l H
      |intros a d u k g tr ty s l H|intros a v u k x s l H|intros a v u k x s|intros a u k abi s l|intros ts|intros i H|intros ts
      |intros a s g b H|intros a s g|intros k ts|intros a v d s g b H|intros k ts];
    try (apply item_stmt_erase; exact H);
    cbn [svisit_item visit_item erase_item svisit_stmt visit_stmt erase_stmt svisit_trait_item visit_trait_item erase_trait_item
         svisit_impl_item visit_impl_item erase_impl_item].
  - apply (fbind erase_attrs); [apply attrs_erase|]; intros a' _. apply (fbind (map erase)); [apply node_erase|]; intros v' _.
    apply (fbind (map erase)); [apply node_erase|]; intros s' _. apply (fbind (map erase_stmt)); [apply forget_mapM; exact H|]. reflexivity.
  - apply (fbind erase_attrs); [apply attrs_erase|]; intros a' _. apply (fbind (map erase)); [apply node_erase|]; intros v' _.
    apply (fbind fst); [apply name_erase|]; intros x' _. apply (fbind erase_generics); [apply generics_erase|]; intros g' _.
    apply (fbind erase_fields); [apply fields_erase|]. reflexivity.
  - apply (fbind erase_attrs); [apply attrs_erase|]; intros a' _. apply (fbind (map erase)); [apply node_erase|]; intros v' _.
    apply (fbind fst); [apply name_erase|]; intros x' _. apply (fbind erase_generics); [apply generics_erase|]; intros g' _.
    apply (fbind (map erase_variant)); [apply forget_mapM', variant_erase|]. reflexivity.
  - apply (fbind erase_attrs); [apply attrs_erase|]; intros a' _. apply (fbind (map erase)); [apply node_erase|]; intros v' _.
    apply (fbind fst); [apply name_erase|]; intros x' _. apply (fbind erase_generics); [apply generics_erase|]; intros g' _.
    apply (fbind (map erase_field)); [apply forget_mapM', field_erase|]. reflexivity.
  - apply (fbind erase_attrs); [apply attrs_erase|]; intros a' _. apply (fbind (map erase)); [apply node_erase|]; intros v' _.
    apply (fbind fst); [apply name_erase|]; intros x' _. apply (fbind erase_generics); [apply generics_erase|]; intros g' _.
    apply (fbind (map (map erase))); [apply forget_mapM', node_erase|]; intros s' _.
    apply (fbind (map erase_trait_item)); [apply forget_mapM; exact H|]. reflexivity.
  - apply (fbind erase_attrs); [apply attrs_erase|]; intros a' _. apply (fbind erase_generics); [apply generics_erase|]; intros g' _.
    apply (fbind (option_map (fun t : option span * list stt * span => (is_some (fst (fst t)), map erase (snd (fst t)))))).
    { apply opt_erase. intros [[o p] fo]. cbn [fst snd]. pose proof (node_erase KPath p) as Hp. rewrite <- Hp. destruct (vnode KPath p); reflexivity. }
    intros tr' _. apply (fbind (map erase)); [apply node_erase|]; intros ty' _.
    apply (fbind (map erase_impl_item)); [apply forget_mapM; exact H|]. reflexivity.
  - apply (fbind erase_attrs); [apply attrs_erase|]; intros a' _. apply (fbind (map erase)); [apply node_erase|]; intros v' _.
    apply (fbind fst); [apply name_erase|]; intros x' _. apply (fbind (option_map (map erase_item))).
    { apply (fbind (map erase_item)); [apply forget_mapM; exact H|]. reflexivity. }
    intros [c|] _; reflexivity.
  - apply (fbind erase_attrs); [apply attrs_erase|]; intros a' _. apply (fbind (map erase)); [apply node_erase|]; intros v' _.
    apply (fbind fst); [apply name_erase|]; intros x' _. reflexivity.
  - apply (fbind erase_attrs); [apply attrs_erase|]; intros a' _. apply (fbind (option_map fst)); [apply opt_erase, abi_erase|]; intros n' _.
    apply (fbind (map (map erase))); [apply forget_mapM', node_erase|]. reflexivity.
  - apply (fbind (map erase)); [apply node_erase|reflexivity].
  - apply (fbind (map erase)); [apply other_erase|reflexivity].
  - apply (fbind erase_attrs); [apply attrs_erase|]; intros a' _. apply (fbind (map erase)); [apply node_erase|]; intros s' _.
    apply (fbind (option_map (map erase_stmt))).
    { apply (fbind (map erase_stmt)); [apply forget_mapM; exact H|]. reflexivity. }
    intros [c|] _; reflexivity.
  - apply (fbind erase_attrs); [apply attrs_erase|]; intros a' _. apply (fbind (map erase)); [apply node_erase|]; intros s' _. reflexivity.
  - apply (fbind (map erase)); [apply node_erase|reflexivity].
  - apply (fbind erase_attrs); [apply attrs_erase|]; intros a' _. apply (fbind (map erase)); [apply node_erase|]; intros v' _.
    apply (fbind (map erase)); [apply node_erase|]; intros s' _. apply (fbind (map erase_stmt)); [apply forget_mapM; exact H|]. reflexivity.
  - apply (fbind (map erase)); [apply node_erase|reflexivity].
Qed.
Lemma stmt_erase s : forget erase_stmt (svisit_stmt O SO lookup salias SN s) = visit_stmt O lookup reparse (erase_stmt s).
Proof. destruct s as [i|ts]; [apply item_stmt_erase, item_erase|]. cbn [svisit_stmt visit_stmt erase_stmt]. apply (fbind (map erase)); [apply other_erase|reflexivity]. Qed.
Lemma block_erase l : forget (map erase_stmt) (svisit_block O SO lookup salias SN l) = visit_block O lookup reparse (map erase_stmt l).
Proof. apply forget_mapM', stmt_erase. Qed.
End Erase.

(** ** Where the spans of a visited item come from *)
Lemma res_bind {A B} U (P : A -> Prop) (Q : B -> Prop) (x : sres A) (k : A -> sres B) :
  res_in U P x -> (forall a, P a -> res_in U Q (k a)) -> res_in U Q (sbind x k).
Proof. destruct x; cbn; auto. Qed.
Lemma res_mapM {A B} U (P : B -> Prop) (v : A -> sres B) l :
  Forall (fun a => res_in U P (v a)) l -> res_in U (Forall P) (smapM v l).
Proof.
  induction 1 as [|a l H _ IH]; [constructor|]. cbn [smapM]. eapply res_bind; [exact H|]. intros b Hb.
  eapply res_bind; [exact IH|]. intros bs Hbs. constructor; assumption.
Qed.
Lemma res_mapM_all {A B} U (P : B -> Prop) (v : A -> sres B) l :
  Forall (fun a => res_in U P (v a)) l -> res_in U (all P) (smapM v l).
Proof.
  intros H. apply res_mapM in H. destruct (smapM v l); [|exact H|exact H]. cbn in *. induction H; cbn; auto.
Qed.
Lemma all_Forall {A} (P : A -> Prop) l : all P l <-> Forall P l.
Proof. split; [induction l; cbn; [constructor|intros [H1 H2]; constructor; auto]|induction 1; cbn; auto]. Qed.
Lemma Forall_imp2 {A} (P Q R : A -> Prop) l : Forall P l -> Forall Q l -> (forall a, P a -> Q a -> R a) -> Forall R l.
Proof. intros H H' HR. induction H; inversion_clear H'; constructor; auto. Qed.

Section Places.
Context (O : oracles) (SO : soracles) (lookup : str -> option value) (salias : str -> option (list stt)) (SN : ssyntax_nodes).
Context (U : span -> Prop).
Hypothesis H0 : U call_site.
Hypothesis Hsub : forall x v, salias x = Some v -> stream_in U v.
Hypothesis I : inherited SO.
Hypothesis IN : inherited_nodes SN.

Lemma stream_app a b : stream_in U (a ++ b) <-> stream_in U a /\ stream_in U b.
Proof. unfold stream_in, spans. rewrite flat_map_app. apply Forall_app. Qed.
Lemma stream_cons t b : stream_in U (t :: b) <-> Forall U (spans1 t) /\ stream_in U b.
Proof. unfold stream_in, spans. cbn [flat_map]. apply Forall_app. Qed.
Lemma stream_flat_map {A} (f : A -> list stt) l : stream_in U (flat_map f l) <-> Forall (fun x => stream_in U (f x)) l.
Proof.
  induction l as [|x l IH]; cbn [flat_map]; [split; constructor|]. rewrite stream_app, IH. split; [intros []; constructor; auto|inversion 1; auto].
Qed.
Lemma stream_incl a b : stream_in U b -> incl (spans a) (call_site :: spans b) -> stream_in U a.
Proof.
  unfold stream_in. rewrite !Forall_forall. intros Hb Hi s Hs. destruct (Hi s Hs) as [<-|H]; [exact H0|exact (Hb s H)].
Qed.
Lemma stream_group d g s : stream_in U [SGroup d g s] <-> U (ds_open s) /\ U (ds_close s) /\ U (ds_entire s) /\ stream_in U g.
Proof.
  unfold stream_in, spans. cbn [flat_map spans1]. rewrite app_nil_r. split.
  - intros H. inversion_clear H as [|? ? Ho H']. inversion_clear H' as [|? ? Hc H'']. inversion_clear H''. auto.
  - intros (Ho & Hc & He & H). repeat constructor; assumption.
Qed.
Lemma stream_sgroup d g s : stream_in U [sgroup d s g] <-> U s /\ stream_in U g.
Proof. unfold sgroup. rewrite stream_group. cbn. tauto. Qed.

Lemma sub_in ts : stream_in U ts -> stream_in U (ssubstituted O lookup salias ts).
Proof.
  unfold stream_in, ssubstituted. rewrite !Forall_forall. intros H s Hs. apply spans_from in Hs as [Hs|(x & v & Hv & Hs)]; [auto|].
  specialize (Hsub x v Hv). unfold stream_in in Hsub. rewrite Forall_forall in Hsub. auto.
Qed.
Lemma occurrences_in ts x s : In (Some (x, s)) (occurrences salias (literal_of O lookup) ts) -> In s (spans ts).
Proof.
  assert (T : forall t, In (Some (x, s)) (occurrences1 salias (literal_of O lookup) t) -> In s (spans1 t)).
  { induction t as [y p|c j p|l p|d g p IH] using stt_ind'; cbn [occurrences1 spans1].
    - destruct (salias y); [|intros []]. intros [H|[]]. injection H as -> ->. left. reflexivity.
    - intros [].
    - destruct (literal_of O lookup l); [intros [H|[]]; discriminate|intros []].
    - intros H. do 3 right. rewrite in_flat_map in *. destruct H as (t & Ht & H). exists t. rewrite Forall_forall in IH. auto. }
  unfold occurrences, spans. rewrite !in_flat_map. intros (t & Ht & H). eauto.
Qed.
Lemma substitute_in {A} (parse : list stt -> option A) (why : list stt -> str) (P : A -> Prop) ts :
  (forall ts' a, stream_in U ts' -> parse ts' = Some a -> P a) ->
  stream_in U ts -> res_in U P (ssubstitute_idents O lookup salias parse why ts).
Proof.
  intros HP Hts. destruct (ssubstitute_idents O lookup salias parse why ts) as [a|er p|p] eqn:E; cbn.
  - apply span_success in E as [E _]. eapply HP; [|exact E]. apply sub_in. exact Hts.
  - apply span_error_at in E as (x & _ & E). apply occurrences_in in E. unfold stream_in in Hts. rewrite Forall_forall in Hts. auto.
  - exact Logic.I.
Qed.

Lemma node_in k ts : stream_in U ts -> res_in U (stream_in U) (svisit_node O lookup salias SN k ts).
Proof. apply substitute_in. intros ts' r H E. eapply stream_incl; [exact H|]. eapply IN. exact E. Qed.
Lemma name_in x : U (snd x) -> res_in U (fun y => U (snd y)) (svisit_name O SO lookup salias x).
Proof.
  intros H. apply substitute_in; [|repeat constructor; exact H]. intros ts' [y s] H' E. apply (inherited_ident SO I) in E.
  unfold stream_in in H'. rewrite Forall_forall in H'. auto.
Qed.
Lemma abi_in l : U (snd l) -> res_in U (fun y => U (snd y)) (svisit_abi O SO lookup salias l).
Proof.
  intros H. apply substitute_in; [|repeat constructor; exact H]. intros ts' [[y p] s] H' E. apply (inherited_lit_str SO I) in E.
  unfold stream_in in H'. rewrite Forall_forall in H'. auto.
Qed.
Lemma opt_in_visit {A} (P : A -> Prop) (v : A -> sres A) o : (forall a, P a -> res_in U P (v a)) ->
  opt_in P o -> res_in U (opt_in P) (svisit_opt v o).
Proof. intros H Ho. destruct o as [a|]; [|exact Logic.I]. cbn in *. eapply res_bind; [apply H; exact Ho|]. auto. Qed.
Lemma attr_tokens_in a : attr_in U a -> stream_in U (pattr_tokens a).
Proof.
  intros (Hp & Hi & Hb & Hm). unfold pattr_tokens. rewrite !stream_app, stream_sgroup. repeat split; [repeat constructor; exact Hp| |exact Hb|exact Hm].
  destruct (pa_inner a); [|constructor]. repeat constructor. exact Hi.
Qed.
Lemma attrs_tokens_in l : attrs_in U l -> stream_in U (pattrs_tokens l).
Proof. intros H. apply stream_flat_map. eapply Forall_impl; [|exact H]. apply attr_tokens_in. Qed.
Lemma outer_in : forall n ts l, List.length ts <= n -> stream_in U ts -> sparse_outer SN ts = Some l -> attrs_in U l.
Proof.
  induction n as [|n IH]; intros [|t ts] l Hn H E; try (cbn in Hn; lia); try (injection E as <-; constructor).
  destruct t as [x s|c j s|l' s|d g s]; try discriminate. destruct ts as [|t ts]; [discriminate|].
  destruct t as [x s'|c' j' s'|l' s'|d g s']; try discriminate. destruct d; try discriminate.
  cbn [sparse_outer] in E. destruct (N.eqb c 35); [|discriminate].
  destruct (sreparse SN KMeta g) as [m'|] eqn:Em; [|discriminate]. destruct (sparse_outer SN ts) as [l'|] eqn:Eo; [|discriminate]. injection E as <-.
  cbn [List.length] in Hn. rewrite !stream_cons in H. destruct H as (Hp & Hg & H). inversion_clear Hp.
  cbn [spans1] in Hg. inversion_clear Hg as [|? ? _ Hg']. inversion_clear Hg' as [|? ? _ Hg'']. inversion_clear Hg'' as [|? ? He Hm].
  constructor; [|eapply IH; [|exact H|exact Eo]; lia]. unfold attr_in. cbn. repeat split; [assumption|exact He|].
  eapply stream_incl; [exact Hm|]. eapply IN. exact Em.
Qed.
Lemma attrs_visit_in l : attrs_in U l -> res_in U (attrs_in U) (svisit_attrs O lookup salias SN l).
Proof. intros H. apply substitute_in; [|apply attrs_tokens_in; exact H]. intros ts' l' H' E. eapply outer_in; [|exact H'|exact E]. reflexivity. Qed.
Lemma field_visit_in f : field_in U f -> res_in U (field_in U) (svisit_field O SO lookup salias SN f).
Proof.
  intros (Ha & Hv & Hx & Ht). unfold svisit_field. eapply res_bind; [apply attrs_visit_in, Ha|]. intros a Ha'.
  eapply res_bind; [apply node_in, Hv|]. intros v Hv'.
  eapply res_bind; [apply (opt_in_visit (fun x : str * span * span => U (snd (fst x)) /\ U (snd x))); [|exact Hx]|].
  { intros [x c] [H1 H2]. unfold svisit_field_name. cbn [fst snd]. eapply res_bind; [apply name_in, H1|]. intros y Hy. split; assumption. }
  intros x Hx'. eapply res_bind; [apply node_in, Ht|]. intros t Ht'. cbn. unfold field_in. cbn. auto.
Qed.
Lemma fields_visit_in f : fields_in U f -> res_in U (fields_in U) (svisit_fields O SO lookup salias SN f).
Proof.
  destruct f as [l t s|l t s|]; cbn [svisit_fields fields_in]; [| |auto]; intros (Hl & Ht & Hs);
    (eapply res_bind; [apply res_mapM; eapply Forall_impl; [|exact Hl]; apply field_visit_in|]; intros l' Hl'; cbn; auto).
Qed.
Lemma generics_visit_in g : generics_in U g -> res_in U (generics_in U) (svisit_generics O lookup salias SN g).
Proof. intros [Hp _]. eapply res_bind; [apply node_in, Hp|]. intros p Hp'. split; [exact Hp'|constructor]. Qed.
Lemma variant_visit_in v : variant_in U v -> res_in U (variant_in U) (svisit_variant O SO lookup salias SN v).
Proof.
  intros (Ha & Hx & Hf & Hd). unfold svisit_variant. eapply res_bind; [apply attrs_visit_in, Ha|]. intros a Ha'.
  eapply res_bind; [apply name_in, Hx|]. intros x Hx'. eapply res_bind; [apply fields_visit_in, Hf|]. intros f Hf'.
  eapply res_bind; [apply (opt_in_visit (fun d : span * list stt => U (fst d) /\ stream_in U (snd d))); [|exact Hd]|].
  { intros [s e] [H1 H2]. cbn [fst snd]. eapply res_bind; [apply node_in, H2|]. intros e' He. split; assumption. }
  intros d Hd'. cbn. unfold variant_in. cbn. auto.
Qed.
Lemma other_visit_in ts : stream_in U ts -> res_in U (stream_in U) (svisit_other_stmt O lookup salias SN ts).
Proof.
  intros H. unfold svisit_other_stmt. destruct (sreparse SN KBlock [sgroup Brace call_site ts]) as [block|] eqn:E; [|exact Logic.I].
  eapply res_bind; [apply node_in; eapply stream_incl; [|eapply IN; exact E]; apply stream_sgroup; auto|].
  intros b Hb. destruct b as [|[x s|c j s|l s|d g s] [|t r]]; try exact Logic.I; destruct d; try exact Logic.I. apply stream_group in Hb. apply Hb.
Qed.

Notation vitem := (svisit_item O SO lookup salias SN).
Notation vstmt := (svisit_stmt O SO lookup salias SN).
Lemma item_stmt_in i : (item_in U i -> res_in U (item_in U) (vitem i)) -> item_in U i -> res_in U (stmt_in U) (vstmt (PSItem i)).
Proof.
  intros H Hi.
  assert (G : res_in U (stmt_in U) (sbind (vitem i) (fun i' => SOk (PSItem i')))) by (eapply res_bind; [apply H, Hi|]; auto).
  assert (G' : forall ts, stream_in U ts -> res_in U (stmt_in U) (vstmt (PSOther ts)))
    by (intros ts Ht; cbn [svisit_stmt]; eapply res_bind; [apply other_visit_in, Ht|]; auto).
  destruct i; try exact G. apply G'. exact Hi.
Qed.
Lemma visited {A} (P : A -> Prop) v l : all P l -> Forall (fun a => P a -> res_in U P (v a)) l -> res_in U (all P) (smapM v l).
Proof. intros Hl H. apply res_mapM_all. apply all_Forall in Hl. eapply Forall_imp2; [exact Hl|exact H|]. auto. Qed.
Ltac step_in := eapply res_bind; [first [apply attrs_visit_in; assumption | apply node_in; assumption | apply name_in; assumption
  | apply generics_visit_in; assumption | apply fields_visit_in; assumption]|]; intros ? ?.
Lemma item_visit_in i : item_in U i -> res_in U (item_in U) (vitem i).
Proof.
  apply (pitem_ind' (fun i => item_in U i -> res_in U (item_in U) (vitem i)) (fun s => stmt_in U s -> res_in U (stmt_in U) (vstmt s))
           (fun i => trait_item_in U i -> res_in U (trait_item_in U) (svisit_trait_item O SO lookup salias SN i))
           (fun i => impl_item_in U i -> res_in U (impl_item_in U) (svisit_impl_item O SO lookup salias SN i)));
    clear i; [intros a v s g b H|intros a v k x g f s|intros a v k x g s l t|intros a v k x g s l t|intros a v u au k x g c s t b l H
      |intros a d u k g tr ty s l H|intros a v u k x s l H|intros a v u k x s|intros a u k abi s l|intros ts|intros i H|intros ts
      |intros a s g b H|intros a s g|intros k ts|intros a v d s g b H|intros k ts];
    try (apply item_stmt_in; exact H);
    cbn [svisit_item svisit_stmt svisit_trait_item svisit_impl_item item_in stmt_in trait_item_in impl_item_in].
  - intros (Ha & Hv & Hs & Hg & Hb). do 3 step_in. eapply res_bind; [apply visited; eassumption|]. intros b' Hb'. cbn. auto.
  - intros (Ha & Hv & Hk & Hx & Hg & Hf & Hs). do 5 step_in. cbn. auto 10.
  - intros (Ha & Hv & Hk & Hx & Hg & Hs & Hl & Ht). do 4 step_in.
    eapply res_bind; [apply res_mapM; eapply Forall_impl; [|exact Hl]; apply variant_visit_in|]. intros l' Hl'. cbn. auto 10.
  - intros (Ha & Hv & Hk & Hx & Hg & Hs & Hl & Ht). do 4 step_in.
    eapply res_bind; [apply res_mapM; eapply Forall_impl; [|exact Hl]; apply field_visit_in|]. intros l' Hl'. cbn. auto 10.
  - intros (Ha & Hv & Hu & Hau & Hk & Hx & Hg & Hc & Hs & Ht & Hb & Hl). do 4 step_in.
    eapply res_bind; [apply res_mapM; eapply Forall_impl; [|exact Hs]; apply node_in|]. intros s' Hs'.
    eapply res_bind; [apply visited; eassumption|]. intros l' Hl'. cbn. auto 15.
  - intros (Ha & Hd & Hu & Hk & Hg & Htr & Hty & Hs & Hl). do 2 step_in.
    eapply res_bind; [apply (opt_in_visit (fun t : option span * list stt * span => opt_in U (fst (fst t)) /\ stream_in U (snd (fst t)) /\ U (snd t))); [|exact Htr]|].
    { intros [[o p] fo] (Hq1 & Hq2 & Hq3). cbn [fst snd] in *. step_in. cbn. auto. }
    intros tr' Htr'. step_in. eapply res_bind; [apply visited; eassumption|]. intros l' Hl'. cbn. auto 12.
  - intros (Ha & Hv & Hu & Hk & Hx & Hs & Hl). do 3 step_in.
    eapply (res_bind U (fun c => match c with Some l => all (item_in U) l | None => True end)).
    { eapply res_bind; [apply visited; eassumption|]. intros l' Hl'. exact Hl'. }
    intros [c|] Hc; cbn; auto 10.
  - intros (Ha & Hv & Hu & Hk & Hx & Hs). do 3 step_in. cbn. auto 10.
  - intros (Ha & Hu & Hk & Habi & Hs & Hl). step_in.
    eapply res_bind; [apply (opt_in_visit (fun x : str * str * span => U (snd x))); [apply abi_in|exact Habi]|]. intros n Hn.
    eapply res_bind; [apply res_mapM; eapply Forall_impl; [|exact Hl]; apply node_in|]. intros l' Hl'. cbn. auto 10.
  - intros Hts. step_in. cbn. auto.
  - intros Hts. eapply res_bind; [apply other_visit_in, Hts|]. auto.
  - intros (Ha & Hs & Hg & Hb). do 2 step_in.
    eapply (res_bind U (fun c => match c with Some l => all (stmt_in U) l | None => True end)).
    { eapply res_bind; [apply visited; eassumption|]. intros l' Hl'. exact Hl'. }
    intros [c|] Hc; cbn; auto 10.
  - intros (Ha & Hs & Hg). do 2 step_in. cbn. auto.
  - intros Hts. step_in. cbn. auto.
  - intros (Ha & Hv & Hd & Hs & Hg & Hb). do 3 step_in. eapply res_bind; [apply visited; eassumption|]. intros b' Hb'. cbn. auto 10.
  - intros Hts. step_in. cbn. auto.
Qed.
Lemma stmt_visit_in s : stmt_in U s -> res_in U (stmt_in U) (vstmt s).
Proof.
  destruct s as [i|ts]; [apply item_stmt_in, item_visit_in|]. intros H. cbn [svisit_stmt]. eapply res_bind; [apply other_visit_in, H|]. auto.
Qed.
Lemma block_visit_in l : block_in U l -> res_in U (block_in U) (svisit_block O SO lookup salias SN l).
Proof. intros H. apply visited; [exact H|]. apply Forall_forall. intros s _. apply stmt_visit_in. Qed.
End Places.

(** The printed tokens of an item have no other spans. *)
Section Printed.
Context (U : span -> Prop).
Hypothesis H0 : U call_site.

Lemma punctuated_in {A} (print : A -> list stt) c t l : forall seps,
  Forall (fun x => stream_in U (print x)) l -> Forall U seps -> stream_in U (spunctuated print c seps t l).
Proof.
  assert (Hh : forall l, Forall U l -> U (hd call_site l)) by (intros ? [|]; cbn; auto).
  assert (Ht : forall l, Forall U l -> Forall U (tl l)) by (intros ? [|]; cbn; auto).
  induction l as [|x [|y l] IH]; intros seps Hl Hs; [constructor| |]; inversion_clear Hl as [|? ? Hx Hr].
  - cbn. rewrite stream_app. split; [exact Hx|]. destruct t; [|constructor]. constructor; [apply Hh, Hs|constructor].
  - specialize (IH (tl seps) Hr (Ht _ Hs)). cbn [spunctuated] in *. rewrite stream_app. split; [exact Hx|]. apply stream_cons.
    split; [|exact IH]. constructor; [apply Hh, Hs|constructor].
Qed.
Lemma filter_in p l : attrs_in U l -> attrs_in U (filter p l).
Proof. apply incl_Forall. intros x Hx. apply filter_In in Hx. tauto. Qed.
Lemma field_tokens_in f : field_in U f -> stream_in U (pfield_tokens f).
Proof.
  intros (Ha & Hv & Hx & Ht). unfold pfield_tokens. rewrite !stream_app. repeat split; [apply attrs_tokens_in, Ha|exact Hv| |exact Ht].
  destruct (pf_ident f) as [[[x s] c]|]; [|constructor]. destruct Hx. repeat constructor; assumption.
Qed.
Lemma fields_tokens_in f : fields_in U f -> stream_in U (pfields_tokens f).
Proof.
  destruct f as [l t s|l t s|]; cbn [fields_in pfields_tokens]; [| |constructor]; intros (Hl & Ht & Hs); apply stream_sgroup; (split; [exact Hs|]);
    apply punctuated_in; [|exact Ht| |exact Ht]; (eapply Forall_impl; [|exact Hl]; apply field_tokens_in).
Qed.
Lemma variant_tokens_in v : variant_in U v -> stream_in U (pvariant_tokens v).
Proof.
  intros (Ha & Hx & Hf & Hd). unfold pvariant_tokens. rewrite !stream_app. repeat split; [apply attrs_tokens_in, Ha|repeat constructor; exact Hx|apply fields_tokens_in, Hf|].
  destruct (pv_disc v) as [[s e]|]; [|constructor]. destruct Hd. apply stream_cons. split; [repeat constructor; assumption|assumption].
Qed.
Lemma skw_if_in o x : opt_in U o -> stream_in U (skw_if o x).
Proof. destruct o; cbn; [intros H; repeat constructor; exact H|constructor]. Qed.
Lemma printed_all {A} (P : A -> Prop) (print : A -> list stt) l : all P l -> Forall (fun a => P a -> stream_in U (print a)) l -> stream_in U (flat_map print l).
Proof. intros Hl H. apply stream_flat_map. apply all_Forall in Hl. eapply Forall_imp2; [exact Hl|exact H|]. auto. Qed.
Ltac printed := repeat first
  [ rewrite stream_app | rewrite stream_sgroup | rewrite stream_cons | split
  | apply attrs_tokens_in, filter_in; assumption | apply skw_if_in; assumption | apply fields_tokens_in; assumption
  | eapply printed_all; eassumption
  | assumption | constructor; assumption | (constructor; [assumption|constructor]) | constructor ].
Lemma item_tokens_in i : item_in U i -> stream_in U (pitem_tokens i).
Proof.
  apply (pitem_ind' (fun i => item_in U i -> stream_in U (pitem_tokens i)) (fun s => stmt_in U s -> stream_in U (pstmt_tokens s))
           (fun i => trait_item_in U i -> stream_in U (ptrait_item_tokens i)) (fun i => impl_item_in U i -> stream_in U (pimpl_item_tokens i)));
    clear i; intros; cbn [pitem_tokens pstmt_tokens ptrait_item_tokens pimpl_item_tokens item_in stmt_in trait_item_in impl_item_in] in *;
    repeat match goal with H : _ /\ _ |- _ => destruct H end; repeat match goal with H : generics_in U _ |- _ => destruct H end; try assumption; try (solve [printed]).
  - destruct f as [l t s'|l t s'|]; printed.
  - printed. apply punctuated_in; [|assumption]. eapply Forall_impl; [|eassumption]. apply variant_tokens_in.
  - printed. apply punctuated_in; [|assumption]. eapply Forall_impl; [|eassumption]. apply field_tokens_in.
  - assert (stream_in U (match s with [] => [] | _ => ssym ":" c :: ppunctuated (fun b => b) "+" t s end)).
    { destruct s; [constructor|]. apply stream_cons. split; [repeat constructor; assumption|]. apply punctuated_in; assumption. }
    printed.
  - assert (stream_in U (match tr with Some (bang, path, for_) => (match bang with Some b => [ssym "!" b] | None => [] end) ++ path ++ [skw "for" for_] | None => [] end)).
    { destruct tr as [[[bang path] fo]|]; [|constructor]. cbn [opt_in fst snd] in *. repeat match goal with H : _ /\ _ |- _ => destruct H end.
      destruct bang; printed. }
    printed.
  - assert (stream_in U (match abi with Some (v, p, a) => [SLit (LStr v p) a] | None => [] end)) by (destruct abi as [[[v p] a']|]; printed).
    assert (stream_in U (List.concat l)) by (rewrite <- (map_id l), <- flat_map_concat_map; apply stream_flat_map; assumption).
    printed.
  - auto.
Qed.
Lemma stmt_tokens_in s : stmt_in U s -> stream_in U (pstmt_tokens s).
Proof. destruct s; [apply item_tokens_in|]. auto. Qed.
Lemma block_tokens_in l : block_in U l -> stream_in U (pblock_tokens l).
Proof. intros H. eapply printed_all; [exact H|]. apply Forall_forall. intros s _. apply stmt_tokens_in. Qed.
End Printed.
