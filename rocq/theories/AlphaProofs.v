(** Uses with other names for their aliases. *)
From Coq Require Import String Lia Bool.
From Verif Require Import Base BaseFacts Token Types Values FormatString Ast Env Item Interpreter Parse Macro SpecFormat SpecSubst SpecElab SpecMacro SpecTuple SpecItem SpecNaming SpecRename
  SpecRepro SpecDeprecation SpecHeaders SpecPrograms SpecNested SpecAlpha ElabFacts LoopAlgebra FormatProofs SubstFacts NamingProofs ReproProofs MacroProofs NestedProofs HeaderProofs HeaderUseProofs.
Open Scope list_scope.

Section Alpha.
Context (O : oracles) (r : naming) (R : one_to_one r).
Let inj : forall x y, r x = r y -> x = y := one_to_one_idents _ R.

Lemma assoc_renamed {A} x (bs : list (str * A)) : assoc_str (r x) (rename_keys r bs) = assoc_str x bs.
Proof.
  induction bs as [|[y v] bs IH]; [reflexivity|]. cbn [rename_keys map fst snd assoc_str].
  destruct (str_eqb x y) eqn:E.
  - apply str_eqb_eq in E. subst y. rewrite str_eqb_refl. reflexivity.
  - destruct (str_eqb (r x) (r y)) eqn:E'; [|exact IH]. apply str_eqb_eq in E'. apply inj in E'. subst y. rewrite str_eqb_refl in E. discriminate.
Qed.
Lemma assoc_fixed {A} x (bs : list (str * A)) : r x = x -> assoc_str x (rename_keys r bs) = assoc_str x bs.
Proof. intros H. rewrite <- H at 1. apply assoc_renamed. Qed.
Lemma assoc_bound {A} x (bs : list (str * A)) : In x (map fst bs) -> assoc_str x bs <> None.
Proof.
  induction bs as [|[y v] bs IH]; [intros []|]. cbn [map fst assoc_str]. intros [->|H]; [rewrite str_eqb_refl; discriminate|]. destruct (str_eqb x y); [discriminate|exact (IH H)].
Qed.

(** ** Definitions *)
Definition vr (bound : list str) (v v' : value) : Prop :=
  match v with VIdent x => v' = VIdent (r x) /\ (In x bound \/ r x = x) | _ => v' = v end.
Lemma vr_leaf bound e : scoped_expr r bound e -> leafrel (vr bound) e (rename_expr r e).
Proof.
  induction e as [id v|id name args raw IH] using expr_ind'; intros H.
  - cbn [rename_expr]. constructor. destruct v; cbn [scoped_expr] in H; try exact H. cbn. split; [reflexivity|exact H].
  - cbn [scoped_expr] in H. destruct H as (Hn & Ha & Hr). cbn [rename_expr]. rewrite Hn. constructor.
    + clear Hn Hr. induction IH as [|e args He _ IHa]; [constructor|]. destruct Ha as [H1 H2]. constructor; [apply He, H1|apply IHa, H2].
    + intros Ht. destruct raw as [[k ts]|]; [|reflexivity]. cbn [option_map fst snd]. rewrite (Hr Ht _ _ eq_refl). reflexivity.
Qed.
Lemma vr_raw bound ts : vr bound (VRaw ts) (VRaw ts).
Proof. reflexivity. Qed.

Inductive scoped_run : list str -> list (str * texpr) -> list (str * texpr) -> Prop :=
| ScNil bound : scoped_run bound [] []
| ScCons bound x te te' l l' : trel eq (vr bound) te te' -> scoped_run (x :: bound) l l' -> scoped_run bound ((x, te) :: l) ((r x, te') :: l').

Lemma elab_renamed s k items : forall G tis, aliases_before r (map fst G) items -> elab_items (new_initialized O s k) G items = Ok tis ->
  exists tis', elab_items (new_initialized O s k) (rename_keys r G) (map (rename_definition r) items) = Ok tis' /\ scoped_run (map fst G) tis tis'.
Proof.
  induction items as [|[x e] items IH]; intros G tis Hs H.
  - injection H as <-. exists []. split; [reflexivity|constructor].
  - cbn [aliases_before fst snd] in Hs. destruct Hs as [He Hs]. cbn [elab_items] in H. change (map (rename_definition r) ((x, e) :: items)) with ((r x, rename_expr r e) :: map (rename_definition r) items). cbn [elab_items].
    pose proof (elab_leafrel O s k (vr (map fst G)) (fun G0 G1 => G0 = G /\ G1 = rename_keys r G)) as L.
    specialize (L ltac:(intros G0 G1 v v' [-> ->] Hv; destruct v; cbn in Hv; try (subst v'; reflexivity); destruct Hv as [-> Hv]; cbn [static_type]; rewrite assoc_renamed; reflexivity) (vr_raw _)
      e (rename_expr r e) G (rename_keys r G) None (vr_leaf _ _ He) (conj eq_refl eq_refl)).
    unfold orel in L. destruct (elab _ G e None) as [[te c]|er]; [|discriminate]. destruct (elab _ (rename_keys r G) _ None) as [[te' c']|]; [|destruct L]. destruct L as [L _].
    rewrite assoc_renamed. destruct (assoc_str x G) eqn:Ea; [discriminate|]. apply bind_Ok in H as (l & H & E). injection E as <-.
    assert (Et : target_of te' = target_of te) by (inversion L; reflexivity).
    rewrite Et. destruct (IH ((x, target_of te) :: G) l Hs H) as (l' & H' & Hr).
    exists ((r x, te') :: l'). split; [|constructor; [exact L|exact Hr]]. exact (f_equal (fun o => let! q := o in Ok ((r x, te') :: q)) H').
Qed.
Lemma run_renamed s bound tis tis' : scoped_run bound tis tis' -> forall ctx, incl bound (map fst ctx) ->
  run_items O s (rename_keys r ctx) tis' = match run_items O s ctx tis with Ok bs => Ok (rename_keys r bs) | Err e => Err e | Panic m => Panic m end.
Proof.
  induction 1 as [bound|bound x te te' l l' Ht _ IH]; intros ctx Hi; [reflexivity|]. cbn [run_items].
  pose proof (run_leafrel O s (vr bound) (fun c0 c1 => c0 = ctx /\ c1 = rename_keys r ctx)) as L.
  specialize (L ltac:(intros c0 c1 v v' [-> ->] Hv; destruct v; cbn in Hv; try (subst v'; reflexivity); destruct Hv as [-> Hv]; cbn [look]; rewrite assoc_renamed;
    destruct (assoc_str _ ctx) eqn:Ea; [reflexivity|]; destruct Hv as [Hv|Hv]; [exfalso; exact (assoc_bound _ _ (Hi _ Hv) Ea)|rewrite Hv; reflexivity]) te te' ctx (rename_keys r ctx) Ht (conj eq_refl eq_refl)).
  rewrite <- L. destruct (run O s ctx te) as [v|e|m]; try reflexivity. cbn [bind].
  change ((r x, v) :: rename_keys r ctx) with (rename_keys r ((x, v) :: ctx)). rewrite IH.
  - destruct (run_items O s ((x, v) :: ctx) l); reflexivity.
  - intros y [->|Hy]; [left; reflexivity|right; exact (Hi y Hy)].
Qed.
Theorem definitions_renamed s k items bs : aliases_before r [] items -> bindings O (new_initialized O s k) items = Ok bs ->
  bindings O (new_initialized O s k) (map (rename_definition r) items) = Ok (rename_keys r bs).
Proof.
  unfold bindings. intros Hs H. apply bind_Ok in H as (tis & H1 & H2). destruct (elab_renamed s k items [] tis Hs H1) as (tis' & H1' & Hr). cbn [rename_keys map] in H1'. rewrite H1'. cbn [bind].
  rewrite (run_renamed _ _ _ _ Hr []) by (intros y []). rewrite H2. reflexivity.
Qed.

(** ** Code *)
Lemma format_fixed f g v ps tail : v = render 37%N ps tail -> wf 37%N ps tail -> (forall t k, In (PHole t k) ps -> f (SpecFormat.name_of (is_whitespace O) t) = g (SpecFormat.name_of (is_whitespace O) t)) ->
  format_string O f v = format_string O g v.
Proof.
  intros -> Hw H. rewrite !format_meaning by exact Hw. unfold SpecFormat.meaning. f_equal. f_equal. apply map_ext_in. intros [t|t k|n] Hp; try reflexivity. cbn. unfold vo. rewrite (H t k Hp). reflexivity.
Qed.
Theorem code_renamed bs ts : scoped_code O r (map fst bs) ts -> substituted O (fun x => assoc_str x (rename_keys r bs)) (rename r ts) = substituted O (fun x => assoc_str x bs) ts.
Proof.
  intros [Hi Hl]. unfold substituted, replaced_stream, rename. unfold leaves in *.
  induction ts as [|t ts IH]; [reflexivity|]. cbn [map flat_map]. f_equal.
  - clear IH. assert (Hi' : forall x, In (TIdent x) (leaves1 t) -> In x (map fst bs) \/ r x = x) by (intros x Hx; apply Hi; cbn [flat_map]; apply in_app_iff; left; exact Hx).
    assert (Hl' : forall l v p, In (TLit l) (leaves1 t) -> parse_lit_str O [TLit l] = Some (v, p) -> exists ps tail, v = render 37%N ps tail /\ wf 37%N ps tail /\ forall t k, In (PHole t k) ps -> r (SpecFormat.name_of (is_whitespace O) t) = SpecFormat.name_of (is_whitespace O) t)
      by (intros l v p Hx; apply Hl; cbn [flat_map]; apply in_app_iff; left; exact Hx).
    clear Hi Hl ts. induction t as [x|c j|l|d ts IH] using tt_ind'.
    + cbn [rename1 replaced]. unfold tokens_of. rewrite assoc_renamed. destruct (assoc_str x bs) eqn:E; [reflexivity|]. cbn [option_map]. destruct (Hi' x (or_introl eq_refl)) as [H|H]; [exfalso; exact (assoc_bound _ _ H E)|rewrite H; reflexivity].
    + reflexivity.
    + cbn [rename1 replaced]. rewrite (one_to_one_literals _ R). unfold literal_of. destruct (parse_lit_str O [TLit l]) as [[v p]|] eqn:E; [|reflexivity].
      destruct (Hl' l v p (or_introl eq_refl) E) as (ps & tail & Hv & Hw & Hh). do 3 f_equal. apply (format_fixed _ _ _ ps tail Hv Hw). intros t k Hp. apply assoc_fixed. exact (Hh t k Hp).
    + cbn [rename1 replaced]. do 2 f_equal. cbn [leaves1] in Hi', Hl'. induction IH as [|t ts Ht _ IHts]; [reflexivity|]. cbn [map flat_map]. f_equal.
      * apply Ht; [intros x Hx; apply Hi'|intros l v p Hx; apply Hl']; cbn [flat_map]; apply in_app_iff; left; exact Hx.
      * apply IHts; [intros x Hx; apply Hi'|intros l v p Hx; apply Hl']; cbn [flat_map]; apply in_app_iff; right; exact Hx.
  - apply IH; [intros x Hx; apply Hi|intros l v p Hx; apply Hl]; cbn [flat_map]; apply in_app_iff; right; exact Hx.
Qed.
Lemma bindings_names s k items bs : bindings O (new_initialized O s k) items = Ok bs -> map fst bs = map fst items.
Proof.
  intros H. unfold bindings in H. apply bind_Ok in H as (tis & H1 & H2).
  assert (E1 : forall items G tis, elab_items (new_initialized O s k) G items = Ok tis -> map fst tis = map fst items).
  { clear. induction items as [|[x e] items IH]; intros G tis H; [injection H as <-; reflexivity|]. cbn [elab_items] in H. destruct (elab _ G e None) as [[te c]|]; [|discriminate]. destruct (assoc_str x G); [discriminate|].
    apply bind_Ok in H as (l & H & E). injection E as <-. cbn. f_equal. exact (IH _ _ H). }
  assert (E2 : forall tis ctx bs, run_items O (e_seed (new_initialized O s k)) ctx tis = Ok bs -> map fst bs = map fst tis).
  { clear. induction tis as [|[x te] tis IH]; intros ctx bs H; [injection H as <-; reflexivity|]. cbn [run_items] in H. apply bind_Ok in H as (v & _ & H). apply bind_Ok in H as (l & H & E). injection E as <-. cbn. f_equal. exact (IH _ _ H). }
  rewrite (E2 _ _ _ H2). exact (E1 _ _ _ H1).
Qed.
Theorem round_renamed s k items ts c : aliases_before r [] items -> scoped_code O r (map fst items) ts -> round_of O (new_initialized O s k) ts items = Ok c ->
  round_of O (new_initialized O s k) (rename r ts) (map (rename_definition r) items) = Ok c.
Proof.
  unfold round_of. intros Hs Hc H. apply bind_Ok in H as (bs & H & E). injection E as <-. rewrite (definitions_renamed _ _ _ _ Hs H). cbn [bind]. f_equal. apply code_renamed. rewrite (bindings_names _ _ _ _ H). exact Hc.
Qed.

(** ** Rounds *)
Lemma combine_both {A B A' B'} (f : A -> A') (g : B -> B') a : forall b, combine (map f a) (map g b) = map (fun p => (f (fst p), g (snd p))) (combine a b).
Proof. induction a as [|x a IH]; intros [|y b]; try reflexivity. cbn. rewrite IH. reflexivity. Qed.
Lemma matched_renamed p v : matched (rename_pattern r p) (map_source (rename_expr r) v) = option_map (map (rename_definition r)) (matched p v).
Proof.
  destruct p as [a|a], v as [e|t]; try reflexivity. cbn [map_source rename_pattern matched]. rewrite !map_kinds. destruct (list_eq_dec _ _ _); [|reflexivity].
  rewrite !map_values, combine_both. reflexivity.
Qed.
Lemma all_matched_renamed ps : forall vs, all_matched (map (rename_pattern r) ps) (map (map_source (rename_expr r)) vs) = option_map (map (rename_definition r)) (all_matched ps vs).
Proof.
  induction ps as [|p ps IH]; intros [|v vs]; try reflexivity. cbn [map all_matched]. rewrite matched_renamed, IH.
  destruct (matched p v), (all_matched ps vs); try reflexivity. cbn. rewrite map_app. reflexivity.
Qed.
Lemma own_renamed ast : own_items (rename_ast r ast) = map (rename_definition r) (own_items ast).
Proof. unfold own_items. cbn. destruct (ast_spec ast); reflexivity. Qed.
Theorem rounds_renamed ast : rounds (rename_ast r ast) = map (option_map (map (rename_definition r))) (rounds ast).
Proof.
  unfold rounds. rewrite own_renamed. cbn [rename_ast ast_loops]. destruct (ast_loops ast) as [ls|]; [|reflexivity]. cbn [option_map].
  replace (map loop_values (map (rename_loop r) ls)) with (map (map (map_source (rename_expr r))) (map loop_values ls)) by (rewrite !map_map; reflexivity).
  replace (map loop_pattern (map (rename_loop r) ls)) with (map (rename_pattern r) (map loop_pattern ls)) by (rewrite !map_map; reflexivity).
  generalize (map loop_pattern ls) as ps, (map loop_values ls) as vs. intros ps vs. rewrite combinations_map, !map_map. apply map_ext. intros c. rewrite all_matched_renamed. destruct (all_matched _ c); [|reflexivity].
  cbn. rewrite map_app. reflexivity.
Qed.
End Alpha.

(** ** Uses *)
Section Uses.
Context (O : oracles) (P : parsers) (Y : syntax) (r : naming) (A : names_alike O P r).
Let R : one_to_one r := alike_one_to_one _ _ _ A.

Lemma source_renamed u u' ast : u_source u' = rename_source r (u_source u) -> p_ast (inv_parsed (invocation_for O P u)) = Ok (Some ast) ->
  p_scope (inv_parsed (invocation_for O P u')) = p_scope (inv_parsed (invocation_for O P u)) /\
  exists ast', p_ast (inv_parsed (invocation_for O P u')) = Ok (Some ast') /\ erase_ast ast' = rename_ast r (erase_ast ast).
Proof.
  intros Hu Ha. destruct A as [R' W F H B].
  assert (E : exists p, inv_parsed (invocation_for O P u') = rename_parsed r p /\ erase_parsed p = erase_parsed (inv_parsed (invocation_for O P u))).
  { unfold invocation_for, invocation_of. rewrite Hu. destruct (u_source u) as [ts|ts|attr item]; cbn [rename_source inv_parsed].
    - rewrite (func_rename r P (known O) H F B). eexists. split; [reflexivity|]. apply func_macro_same.
    - rewrite (func_rename r P (known O) H F B). eexists. split; [reflexivity|]. apply func_macro_same.
    - rewrite (attr_rename r P (known O) H F B). eexists. split; [reflexivity|]. apply attr_macro_same. }
  destruct E as (p & E1 & E2). destruct (same_header _ _ _ E2 Ha) as (S1 & a & S2 & S3). rewrite E1. cbn [rename_parsed p_scope p_ast]. rewrite S2. split; [exact S1|].
  eexists. split; [reflexivity|]. rewrite erase_renamed, S3. reflexivity.
Qed.
Lemma aliases_renamed ast : ast_aliases (rename_ast r ast) = map r (ast_aliases ast).
Proof.
  unfold ast_aliases. rewrite own_renamed, map_app, !map_map. f_equal. cbn [rename_ast ast_loops]. destruct (ast_loops ast) as [ls|]; [|reflexivity]. cbn [option_map]. rewrite flat_map_map, map_flat_map. apply flat_map_ext.
  intros [[x|t] vs]; [reflexivity|]. cbn. apply map_values.
Qed.
Lemma erased_code ast ast' : erase_ast ast = erase_ast ast' -> code ast = code ast'.
Proof. intros E. apply (f_equal ast_block) in E. cbn in E. unfold code. rewrite E. reflexivity. Qed.
Lemma erased_scoped bound e : scoped_expr r bound e -> scoped_expr r bound (erase e).
Proof.
  induction e as [id v|id name args raw IH] using expr_ind'; intros H; [exact H|]. cbn [scoped_expr] in H. destruct H as (Hn & Ha & Hr). cbn [erase scoped_expr]. split; [exact Hn|]. split.
  - clear Hn Hr. induction IH as [|e args He _ IHa]; [constructor|]. destruct Ha as [H1 H2]. split; [apply He, H1|apply IHa, H2].
  - intros Ht k ts E. destruct raw as [[k' ts']|]; [|discriminate]. cbn in E. injection E as <- <-. exact (Hr Ht _ _ eq_refl).
Qed.
Lemma erased_before items : forall bound, aliases_before r bound items -> aliases_before r bound (map_items erase items).
Proof. induction items as [|[x e] items IH]; intros bound H; [exact I|]. destruct H as [H1 H2]. split; [apply erased_scoped, H1|apply IH, H2]. Qed.

Theorem use_renamed uses i u ast c uses' j u' c' : faithful O (reparse Y) -> covers Y ->
  nth_error uses i = Some u -> p_ast (inv_parsed (invocation_for O P u)) = Ok (Some ast) -> raised (invocation_for O P u) = [] -> nth_error (expand_uses O P Y uses) i = Some (Code c) ->
  nth_error uses' j = Some u' -> u_source u' = rename_source r (u_source u) -> u_seed u' = u_seed u -> nth_error (expand_uses O P Y uses') j = Some (Code c') ->
  (forall x, In x item_keywords -> ~ In x (ast_aliases ast)) -> scoped_use O r ast -> c' = c.
Proof.
  intros Hfa Hco Hu Ha Hr Hc Hu' Hsrc Hs Hc' Hk Hsc. destruct (source_renamed u u' ast Hsrc Ha) as (E1 & ast' & Ha' & E2).
  assert (Hr' : raised (invocation_for O P u') = []) by (unfold raised in *; rewrite E1; exact Hr).
  assert (Hk' : forall x, In x item_keywords -> ~ In x (ast_aliases ast')).
  { intros x Hx Hi. rewrite <- erased_aliases, E2, aliases_renamed, erased_aliases in Hi. apply in_map_iff in Hi as (y & Ey & Hy).
    assert (Hp : In x printed_words). { clear -Hx. cbn in Hx. repeat (destruct Hx as [<-|Hx]; [vm_compute; auto 20|]). destruct Hx. }
    pose proof (proj1 (Forall_forall _ _) (alike_printed _ _ _ A) x Hp) as Hsp. apply (proj1 (Hsp y)) in Ey. subst y. exact (Hk x Hx Hy). }
  pose proof (quiet_code O P Y _ _ _ _ _ Hfa Hco Hu Ha Hr Hk Hc) as M. rewrite (erased_meaning O _ (u_seed u) _ _ (or_introl eq_refl)) in M.
  pose proof (quiet_code O P Y _ _ _ _ _ Hfa Hco Hu' Ha' Hr' Hk' Hc') as M'. rewrite (erased_meaning O _ (u_seed u) _ _ (or_introl Hs)) in M'.
  rewrite E2, rounds_renamed, ReproProofs.all_some_map in M'.
  assert (Hcode : code ast' = rename r (code ast)).
  { transitivity (code (rename_ast r ast)); [apply erased_code; rewrite erase_renamed; exact E2|]. apply code_rename; [exact (alike_printed _ _ _ A)|intros v p; apply (one_to_one_literals _ R)]. }
  rewrite Hcode in M'.
  destruct (all_some (rounds (erase_ast ast))) as [rs|] eqn:Er; [|discriminate]. cbn [option_map] in M'.
  apply bind_Ok in M as (codes & M & E). injection E as <-. 
  assert (Hin : forall items, In items rs -> aliases_before r [] items /\ scoped_code O r (map fst items) (code ast)).
  { intros items Hi. pose proof (NestedProofs.all_some_in _ _ Er) as El. assert (Hi' : In (Some items) (rounds (erase_ast ast))) by (rewrite El; apply in_map, Hi).
    unfold erase_ast in Hi'. rewrite rounds_map in Hi'. apply in_map_iff in Hi' as ([its|] & Ei & Hi'); [|discriminate]. cbn in Ei. injection Ei as <-. destruct (Hsc its Hi') as [H1 H2]. split; [apply erased_before, H1|].
    unfold map_items. rewrite map_map. exact H2. }
  assert (Hm : mapM (round_of O (new_initialized O (u_seed u) 0) (rename r (code ast))) (map (map (rename_definition r)) rs) = Ok codes).
  { clear -M Hin R. revert codes M. induction rs as [|items rs IH]; intros codes M; [exact M|]. cbn [mapM] in M. apply bind_Ok in M as (y & M1 & M). apply bind_Ok in M as (ys & M2 & E). injection E as <-.
    cbn [map mapM]. destruct (Hin items (or_introl eq_refl)) as [H1 H2]. rewrite (round_renamed O r R _ _ _ _ _ H1 H2 M1). cbn [bind]. rewrite (IH (fun it H => Hin it (or_intror H)) ys M2). reflexivity. }
  rewrite Hm in M'. injection M' as <-. reflexivity.
Qed.
End Uses.
