(** The log of a substitution. *)
From Verif Require Import Base BaseFacts Token Types Values FormatString StreamWalker SubstituteIdents SpecSubst WalkerProofs SubstFacts Item
  AliasSubstitution SubstituteLog SpecItem VisitorProofs VisitorTotal SpecOutcome SpecSubstWork.

Section Substitution.
Context (O : oracles) (lookup : str -> option value).
Context {N : Type} (parse : list tt -> option N).

Notation alias_toks := (tokens_of lookup).
Notation new_lit := (literal_of O lookup).
Notation V := (logging_visitor O lookup parse).
Notation subst := (replaced_stream alias_toks new_lit).
Notation stagesOf := (stages alias_toks new_lit).

Definition lcheck (s : lstate) (l : list (option str * list tt)) : res lstate :=
  let! last := check parse (fst s) l in Ok (last, snd s ++ map snd l).
Lemma lcheck_app s a b : lcheck s (a ++ b) = let! s' := lcheck s a in lcheck s' b.
Proof.
  unfold lcheck. rewrite check_app. destruct (check parse (fst s) a); cbn [bind fst snd]; [|reflexivity..].
  rewrite map_app, app_assoc. reflexivity.
Qed.
Lemma lcheck_nil s : lcheck s [] = Ok s.
Proof. destruct s. unfold lcheck. cbn. rewrite app_nil_r. reflexivity. Qed.
Lemma walk_from_step fuel s c : walk_from V (S fuel) s c =
  let! r := walk_step V s c in match r with inl (s', c') => walk_from V fuel s' c' | inr out => Ok out end.
Proof. reflexivity. Qed.

(** One replacement at the cursor. *)
Lemma replace_step s done t todo z new name fuel :
  (let last' := (match name with Some x => Some x | None => fst s end, snd s) in
   let! r := skip_or_replace V last' ((length done, done ++ t :: todo) :: map cursor_of z) (Replace new) in
   match @inl (lstate * ctx) (lstate * list tt) r with inl (s', c') => walk_from V fuel s' c' | inr out => Ok out end) =
  let! s' := lcheck s [(name, plug z (done ++ new ++ todo))] in
  walk_from V fuel s' ((length (done ++ new), (done ++ new) ++ todo) :: map cursor_of z).
Proof.
  assert (Hc : (match new with
     | [] => replace_current_token ((length done, done ++ t :: todo) :: map cursor_of z) []
     | _ => advance_current_group (replace_current_token ((length done, done ++ t :: todo) :: map cursor_of z) new)
     end) = (length (done ++ new), (done ++ new) ++ todo) :: map cursor_of z).
  { destruct new as [|n new]; cbn [replace_current_token advance_current_group]; rewrite splice_at.
    - rewrite app_nil_r. cbn [app length Nat.sub]. rewrite Nat.add_0_r, Nat.min_r by (rewrite app_length; lia). reflexivity.
    - rewrite <- app_assoc. f_equal. f_equal. rewrite !app_length. cbn [length]. lia. }
  cbn zeta. set (last' := match name with Some x => Some x | None => fst s end).
  assert (Ha : after_replace V (last', snd s) ((length (done ++ new), (done ++ new) ++ todo) :: map cursor_of z) = lcheck s [(name, plug z (done ++ new ++ todo))]).
  { subst last'. destruct s as [s l]. cbn [after_replace logging_visitor fst snd]. unfold subst_after, lcheck. rewrite current_stream_plug. cbn [bind check map fst snd]. rewrite <- app_assoc.
    destruct (parse _); [reflexivity|]. destruct name; [reflexivity|]. destruct s; reflexivity. }
  destruct new as [|n new]; cbn [skip_or_replace]; rewrite Hc, Ha; destruct (lcheck _ _); reflexivity.
Qed.

Lemma continue_step s done t todo z fuel :
  (let! r := skip_or_replace V s ((length done, done ++ t :: todo) :: map cursor_of z) Continue in
   match @inl (lstate * ctx) (lstate * list tt) r with inl (s', c') => walk_from V fuel s' c' | inr out => Ok out end) =
  walk_from V fuel s ((length (done ++ [t]), (done ++ [t]) ++ todo) :: map cursor_of z).
Proof.
  cbn [skip_or_replace bind advance_current_group]. rewrite <- app_assoc. cbn [app]. do 3 f_equal. rewrite !app_length. cbn [length]. lia.
Qed.

Definition walks (todo : list tt) : Prop := forall s done z fuel,
  walk_from V (stream_steps todo + fuel) s ((length done, done ++ todo) :: map cursor_of z) =
  let! s' := lcheck s (in_hole z done (stagesOf todo)) in
  walk_from V fuel s' ((length (done ++ subst todo), done ++ subst todo) :: map cursor_of z).

Lemma walks_all todo : walks todo.
Proof.
  remember (stream_size todo) as n eqn:Hn. revert todo Hn.
  induction n as [n IHn] using lt_wf_ind. intros todo Hn.
  destruct todo as [|t todo]; intros s done z fuel.
  { cbn [stream_steps fold_right Nat.add stages in_hole map replaced_stream flat_map]. rewrite lcheck_nil. cbn [bind]. rewrite !app_nil_r. reflexivity. }
  assert (Hsz : stream_size todo < n) by (subst n; cbn; assert (1 <= tt_size t) by (destruct t; cbn; lia); fold (stream_size todo); lia).
  pose proof (IHn _ Hsz todo eq_refl) as IH.
  rewrite steps_cons, in_hole_cons, lcheck_app, bind_assoc.
  assert (Hsub : subst (t :: todo) = replaced alias_toks new_lit t ++ subst todo) by reflexivity.
  rewrite Hsub. clear Hsub.
  assert (Hrest : forall s', (let! s'' := lcheck s' (in_hole z (done ++ replaced alias_toks new_lit t) (stagesOf todo)) in
      walk_from V fuel s'' ((length (done ++ replaced alias_toks new_lit t ++ subst todo), done ++ replaced alias_toks new_lit t ++ subst todo) :: map cursor_of z))
    = walk_from V (stream_steps todo + fuel) s' ((length (done ++ replaced alias_toks new_lit t), (done ++ replaced alias_toks new_lit t) ++ todo) :: map cursor_of z)).
  { intros s'. rewrite IH. rewrite <- app_assoc. reflexivity. }
  destruct t as [x|p j|l|d g].
  - cbn [tt_steps Nat.add]. rewrite walk_from_step. cbn [walk_step]. rewrite nth_at. cbn [visit_ident logging_visitor]. unfold with_log, subst_ident.
    cbn [replaced stages1] in *. destruct (lookup x) as [v|] eqn:El.
    + assert (Ha : alias_toks x = Some (to_tokens v)) by (unfold tokens_of; rewrite El; reflexivity). rewrite Ha in *. cbn [map fst snd bind].
      rewrite bind_assoc. cbn [bind]. pose proof (replace_step s done (TIdent x) todo z (to_tokens v) (Some x) (stream_steps todo + fuel)) as Hr.
      cbn zeta in Hr. etransitivity; [exact Hr|]. apply bind_cong. intros s'. symmetry. apply Hrest.
    + assert (Ha : alias_toks x = None) by (unfold tokens_of; rewrite El; reflexivity). rewrite Ha in *. cbn [map fst snd bind]. rewrite <- surjective_pairing.
      rewrite bind_assoc. cbn [bind]. etransitivity; [apply (continue_step s done (TIdent x) todo z (stream_steps todo + fuel))|]. symmetry. rewrite lcheck_nil. cbn [bind]. apply Hrest.
  - cbn [tt_steps Nat.add]. rewrite walk_from_step. cbn [walk_step]. rewrite nth_at. cbn [visit_punct logging_visitor bind].
    rewrite bind_assoc. cbn [bind]. etransitivity; [apply (continue_step s done _ todo z (stream_steps todo + fuel))|]. symmetry. cbn [stages1 map]. rewrite lcheck_nil. cbn [bind]. apply Hrest.
  - cbn [tt_steps Nat.add]. rewrite walk_from_step. cbn [walk_step]. rewrite nth_at. cbn [visit_literal logging_visitor]. unfold with_log, subst_literal.
    cbn [replaced stages1] in *. destruct (parse_lit_str O [TLit l]) as [[v sp]|] eqn:El.
    + assert (Ha : new_lit l = Some (LStr (format_string O lookup v) [])) by (unfold literal_of; rewrite El; reflexivity). rewrite Ha in *. cbn [map fst snd bind].
      rewrite bind_assoc. cbn [bind]. pose proof (replace_step s done (TLit l) todo z [TLit (LStr (format_string O lookup v) [])] None (stream_steps todo + fuel)) as Hr.
      cbn zeta in Hr. etransitivity; [exact Hr|]. apply bind_cong. intros s'. symmetry. apply Hrest.
    + assert (Ha : new_lit l = None) by (unfold literal_of; rewrite El; reflexivity). rewrite Ha in *. cbn [map fst snd bind]. rewrite <- surjective_pairing.
      rewrite bind_assoc. cbn [bind]. etransitivity; [apply (continue_step s done _ todo z (stream_steps todo + fuel))|]. symmetry. rewrite lcheck_nil. cbn [bind]. apply Hrest.
  - assert (Hg : stream_size g < n) by (subst n; cbn; fold (stream_size g) (stream_size todo); lia).
    pose proof (IHn _ Hg g eq_refl) as IHg.
    cbn [tt_steps]. fold (stream_steps g).
    replace (2 + stream_steps g + stream_steps todo + fuel) with (S (stream_steps g + S (stream_steps todo + fuel))) by lia.
    rewrite walk_from_step. cbn [walk_step]. rewrite nth_at. cbn [visit_group enter_group logging_visitor bind]. unfold push_group.
    pose proof (IHg s [] ((done, d, g, todo) :: z) (S (stream_steps todo + fuel))) as H. cbn [app length map cursor_of] in H. etransitivity; [exact H|]. clear H.
    rewrite stages1_group, map_map. cbn [fst snd]. unfold in_hole at 1. cbn [plug app].
    apply bind_cong. intros s'. rewrite walk_from_step. cbn [walk_step].
    assert (He : nth_error (subst g) (length (subst g)) = None) by (apply nth_error_None; lia). rewrite He.
    cbn [exit_group logging_visitor bind]. cbn [pop_fold]. rewrite fold_group_at. cbn [bind advance_current_group].
    rewrite Hrest. rewrite replaced_group. rewrite <- app_assoc. cbn [app]. do 3 f_equal. rewrite !app_length. cbn [length]. lia.
Qed.

(** The whole walk. *)
Lemma walk_subst ts : walk V (S (stream_steps ts)) (None, []) ts =
  let! s := lcheck (None, []) (stagesOf ts) in Ok (s, subst ts).
Proof.
  unfold walk. pose proof (walks_all ts (None, []) [] [] 1) as H. cbn [app length map] in H. rewrite Nat.add_1_r in H. etransitivity; [exact H|]. clear H.
  unfold in_hole. cbn [plug app].
  replace (map (fun s => (fst s, snd s)) (stagesOf ts)) with (stagesOf ts) by (rewrite <- (map_id (stagesOf ts)) at 1; apply map_ext; intros []; reflexivity).
  apply bind_cong. intros s'. rewrite walk_from_step. cbn [walk_step].
  assert (He : nth_error (subst ts) (length (subst ts)) = None) by (apply nth_error_None; lia). rewrite He. reflexivity.
Qed.


(** [r'] is [r] with a log. *)
Definition says {A} (r : res A) (r' : logged A) (l : log) : Prop :=
  match r with Ok a => r' = Ok (a, l) | Err e => r' = Err e | Panic p => r' = Panic p end.
Lemma substitute_says ts : says (substitute_idents O lookup parse ts) (lsubstitute_idents O lookup parse ts) (stream_parses O lookup ts).
Proof.
  unfold lsubstitute_idents. rewrite walk_subst, substitute_idents_spec. unfold lcheck. cbn [fst snd app].
  destruct (check parse None (stagesOf ts)) as [s| |]; cbn [bind snd]; [|reflexivity..].
  destruct (parse (subst ts)); reflexivity.
Qed.
End Substitution.

Section Visit.
Context (O : oracles) (lookup : str -> option value) (reparse : kind -> list tt -> option (list tt)).
Notation parses := (flat_map (part_parses O lookup)).

Lemma says_bind {A B} (r : res A) r' (k : A -> res B) k' l m : says r r' l -> (forall a, says (k a) (k' a) m) -> says (bind r k) (lbind r' k') (l ++ m).
Proof.
  unfold says at 1. destruct r as [a| |]; intros -> H; [|reflexivity..]. cbn [bind lbind]. specialize (H a). unfold says in *.
  destruct (k a); rewrite H; reflexivity.
Qed.
Lemma says_map {A B} (r : res A) r' (k : A -> B) l : says r r' l -> says (let! a := r in Ok (k a)) (let@ a := r' in lret (k a)) l.
Proof. intros H. rewrite <- (app_nil_r l). apply says_bind; [exact H|]. reflexivity. Qed.
Lemma step {A B} (r : res A) r' (k : A -> res B) k' p l : says r r' (part_parses O lookup p) -> (forall a, says (k a) (k' a) (parses l)) ->
  says (bind r k) (lbind r' k') (parses (p :: l)).
Proof. apply says_bind. Qed.
Lemma steps {A B} (r : res A) r' (k : A -> res B) k' ps l : says r r' (parses ps) -> (forall a, says (k a) (k' a) (parses l)) ->
  says (bind r k) (lbind r' k') (parses (ps ++ l)).
Proof. rewrite flat_map_app. apply says_bind. Qed.
Lemma single {A} (r : res A) r' p : says r r' (part_parses O lookup p) -> says r r' (parses [p]).
Proof. cbn [flat_map]. rewrite app_nil_r. trivial. Qed.
Lemma done {A} (a : A) : says (Ok a) (lret a) (parses []).
Proof. reflexivity. Qed.
Lemma children {A} (visit : A -> res A) visit' parts (l : list A) : Forall (fun x => says (visit x) (visit' x) (parses (parts x))) l ->
  says (mapM visit l) (lmap visit' l) (parses (flat_map parts l)).
Proof.
  induction 1 as [|x l H _ IH]; [reflexivity|]. cbn [mapM lmap flat_map]. rewrite flat_map_app. apply says_bind; [exact H|]. intros y. apply says_map. exact IH.
Qed.
Lemma opt {A B} (f : A -> res A) f' parts (x : option A) (k : option A -> res B) k' l :
  (forall a, says (f a) (f' a) (parses (parts a))) -> (forall y, says (k y) (k' y) (parses l)) ->
  says (let! y := visit_opt f x in k y) (let@ y := lvisit_opt f' x in k' y) (parses (optional parts x ++ l)).
Proof.
  intros H1 H2. destruct x as [a|]; cbn [visit_opt lvisit_opt optional].
  - apply steps; [|exact H2]. apply says_map, H1.
  - apply (steps (Ok None) (lret None) k k' [] l); [reflexivity|exact H2].
Qed.

Notation VN := (visit_node O lookup reparse).
Lemma node k ts : says (VN k ts) (lvisit_node O lookup reparse k ts) (part_parses O lookup (PartNode k ts)).
Proof. apply substitute_says. Qed.
Lemma name x : says (visit_name O lookup x) (lvisit_name O lookup x) (part_parses O lookup (PartName x)).
Proof. apply substitute_says. Qed.
Lemma abi l : says (visit_abi O lookup l) (lvisit_abi O lookup l) (part_parses O lookup (PartAbi (fst l) (snd l))).
Proof. apply substitute_says. Qed.
Lemma attrs l : says (visit_attrs O lookup reparse l) (lvisit_attrs O lookup reparse l) (part_parses O lookup (PartAttributes l)).
Proof. apply substitute_says. Qed.
Lemma nodes k l : says (mapM (VN k) l) (lmap (lvisit_node O lookup reparse k) l) (parses (map (PartNode k) l)).
Proof.
  replace (map (PartNode k) l) with (flat_map (fun ts => [PartNode k ts]) l) by (induction l; cbn; congruence).
  apply children. apply Forall_forall. intros ts _. apply single, node.
Qed.

Context (F : faithful O reparse).
Lemma other ts : says (visit_other_stmt O lookup reparse ts) (lvisit_other_stmt O lookup reparse ts) (part_parses O lookup (PartStatement ts)).
Proof.
  unfold visit_other_stmt, lvisit_other_stmt. destruct (reparse KBlock [TGroup Brace ts]) as [b|] eqn:Eb; [|reflexivity].
  apply (faithful_node _ _ F) in Eb as ->. unfold part_parses. cbn [part_tokens].
  apply (says_bind (Ok Datatypes.tt) (Ok (Datatypes.tt, [[TGroup Brace ts]])) (fun _ => _) (fun _ => _)); [reflexivity|]. intros _.
  rewrite <- (app_nil_r (stream_parses _ _ _)). apply says_bind; [apply node|]. intros a.
  repeat match goal with |- context [match ?x with _ => _ end] => destruct x; try reflexivity end.
Qed.

Lemma field f : says (visit_field O lookup reparse f) (lvisit_field O lookup reparse f) (parses (field_parts f)).
Proof.
  unfold visit_field, lvisit_field, field_parts. cbn [app]. apply step; [apply attrs|intros a]. apply step; [apply node|intros v].
  apply opt; [intros x; apply single, name|intros y]. apply step; [apply node|intros t]. apply done.
Qed.
Lemma fields_l l : says (mapM (visit_field O lookup reparse) l) (lmap (lvisit_field O lookup reparse) l) (parses (flat_map field_parts l)).
Proof. apply children. apply Forall_forall. intros f _. apply field. Qed.
Lemma all_fields f : says (visit_fields O lookup reparse f) (lvisit_fields O lookup reparse f) (parses (fields_parts f)).
Proof. destruct f as [l t|l t|]; cbn [visit_fields lvisit_fields fields_parts]; [apply says_map, fields_l..|apply done]. Qed.
Lemma variant_l v : says (visit_variant O lookup reparse v) (lvisit_variant O lookup reparse v) (parses (variant_parts v)).
Proof.
  unfold visit_variant, lvisit_variant, variant_parts. cbn [app]. apply step; [apply attrs|intros a]. apply step; [apply name|intros x].
  apply steps; [apply all_fields|intros f]. rewrite <- (app_nil_r (optional _ _)). apply opt; [intros e; apply single, node|intros d]. apply done.
Qed.
Lemma gen {B} g (k : generics -> res B) k' l : (forall g, says (k g) (k' g) (parses l)) ->
  says (let! g' := visit_generics O lookup reparse g in k g') (let@ g' := lvisit_generics O lookup reparse g in k' g') (parses (PartNode KGenerics (g_params g) :: l)).
Proof. intros H. apply step; [|exact H]. unfold visit_generics, lvisit_generics. apply says_map, node. Qed.

Definition EI (i : item) := says (visit_item O lookup reparse i) (lvisit_item O lookup reparse i) (parses (item_parts i)).
Definition ES (s : stmt) := says (visit_stmt O lookup reparse s) (lvisit_stmt O lookup reparse s) (parses (stmt_parts s)).
Definition ET (i : trait_item) := says (visit_trait_item O lookup reparse i) (lvisit_trait_item O lookup reparse i) (parses (trait_item_parts i)).
Definition EM (i : impl_item) := says (visit_impl_item O lookup reparse i) (lvisit_impl_item O lookup reparse i) (parses (impl_item_parts i)).

Notation LA := (lvisit_attrs O lookup reparse).
Notation LN := (lvisit_node O lookup reparse).
Notation LX := (lvisit_name O lookup).
Lemma lvisit_fn a v s b : lvisit_item O lookup reparse (IFn a v s b) =
  let@ a := LA a in let@ v := LN KVis v in let@ s := LN KSig s in let@ b := lmap (lvisit_stmt O lookup reparse) b in lret (IFn a v s b).
Proof. reflexivity. Qed.
Lemma lvisit_trait a v u au x g s t l : lvisit_item O lookup reparse (ITrait a v u au x g s t l) =
  let@ a := LA a in let@ v := LN KVis v in let@ x := LX x in let@ g := lvisit_generics O lookup reparse g in
  let@ s := lmap (LN KBound) s in let@ l := lmap (lvisit_trait_item O lookup reparse) l in lret (ITrait a v u au x g s t l).
Proof. reflexivity. Qed.
Lemma lvisit_impl a d u g tr ty l : lvisit_item O lookup reparse (IImpl a d u g tr ty l) =
  let@ a := LA a in let@ g := lvisit_generics O lookup reparse g in
  let@ tr := lvisit_opt (fun bp : bool * list tt => let@ p := LN KPath (snd bp) in lret (fst bp, p)) tr in
  let@ ty := LN KType ty in let@ l := lmap (lvisit_impl_item O lookup reparse) l in lret (IImpl a d u g tr ty l).
Proof. reflexivity. Qed.
Lemma lvisit_mod a v u x l : lvisit_item O lookup reparse (IMod a v u x (Some l)) =
  let@ a := LA a in let@ v := LN KVis v in let@ x := LX x in
  let@ c := (let@ l := lmap (lvisit_item O lookup reparse) l in lret (Some l)) in lret (IMod a v u x c).
Proof. reflexivity. Qed.
Lemma lvisit_trait_fn a s b : lvisit_trait_item O lookup reparse (TFn a s (Some b)) =
  let@ a := LA a in let@ s := LN KSig s in let@ c := (let@ b := lmap (lvisit_stmt O lookup reparse) b in lret (Some b)) in lret (TFn a s c).
Proof. reflexivity. Qed.
Lemma lvisit_impl_fn a v d s b : lvisit_impl_item O lookup reparse (MFn a v d s b) =
  let@ a := LA a in let@ v := LN KVis v in let@ s := LN KSig s in let@ b := lmap (lvisit_stmt O lookup reparse) b in lret (MFn a v d s b).
Proof. reflexivity. Qed.

Ltac attrs := apply step; [apply attrs|intros ?].
Ltac node := apply step; [apply node|intros ?].
Ltac name := apply step; [apply name|intros ?].
Ltac gens := apply gen; intros ?.
Ltac kids H := apply says_map, children; exact H.

Lemma item_says i : EI i.
Proof.
  apply (item_ind' EI ES ET EM); unfold EI, ES, ET, EM; clear i.
  - intros a v s b IH. rewrite visit_fn, lvisit_fn. change (item_parts (IFn a v s b)) with ([PartAttributes a; PartNode KVis v; PartNode KSig s] ++ flat_map stmt_parts b).
    cbn [app]. attrs. node. node. kids IH.
  - intros a v x g f. cbn [visit_item lvisit_item item_parts head_parts app]. attrs. node. name. gens. apply says_map, all_fields.
  - intros a v x g l t. cbn [visit_item lvisit_item item_parts head_parts app]. attrs. node. name. gens. apply says_map, children, Forall_forall. intros w _. apply variant_l.
  - intros a v x g l t. cbn [visit_item lvisit_item item_parts head_parts app]. attrs. node. name. gens. apply says_map, fields_l.
  - intros a v u au x g s t l IH. rewrite visit_trait, lvisit_trait.
    change (item_parts (ITrait a v u au x g s t l)) with (head_parts a v x g ++ map (PartNode KBound) s ++ flat_map trait_item_parts l).
    cbn [head_parts app]. attrs. node. name. gens. apply steps; [apply nodes|intros ?]. kids IH.
  - intros a d u g tr ty l IH. rewrite visit_impl, lvisit_impl.
    change (item_parts (IImpl a d u g tr ty l)) with ([PartAttributes a; PartNode KGenerics (g_params g)] ++ optional (fun p => [PartNode KPath (snd p)]) tr ++ [PartNode KType ty] ++ flat_map impl_item_parts l).
    cbn [app]. attrs. gens. apply opt; [intros [bang p]; cbn [fst snd]; apply says_map, single, node|intros ?]. node. kids IH.
  - intros a v u x l IH. rewrite visit_mod, lvisit_mod.
    change (item_parts (IMod a v u x (Some l))) with ([PartAttributes a; PartNode KVis v; PartName x] ++ flat_map item_parts l).
    cbn [app]. attrs. node. name. apply says_map. kids IH.
  - intros a v u x. cbn [visit_item lvisit_item item_parts app]. attrs. node. name. apply done.
  - intros a u abi' l. cbn [visit_item lvisit_item item_parts app]. attrs. apply opt; [intros s; apply single, abi|intros ?]. apply says_map, nodes.
  - intros ts. cbn [visit_item lvisit_item item_parts]. apply says_map, single, node.
  - intros i IH. assert (Hd : (exists ts, i = IOther ts) \/ (stmt_parts (SItem i) = item_parts i /\ visit_stmt O lookup reparse (SItem i) = (let! i' := visit_item O lookup reparse i in Ok (SItem i')) /\
        lvisit_stmt O lookup reparse (SItem i) = let@ i' := lvisit_item O lookup reparse i in lret (SItem i')))
      by (destruct i; [right; repeat split; reflexivity ..|left; eauto]).
    destruct Hd as [[ts ->]|(H1 & H2 & H3)].
    + cbn [visit_stmt lvisit_stmt stmt_parts]. apply says_map, single, other.
    + rewrite H1, H2, H3. apply says_map, IH.
  - intros ts. cbn [visit_stmt lvisit_stmt stmt_parts]. apply says_map, single, other.
  - intros a s b IH. rewrite visit_trait_fn, lvisit_trait_fn.
    change (trait_item_parts (TFn a s (Some b))) with ([PartAttributes a; PartNode KSig s] ++ flat_map stmt_parts b). cbn [app]. attrs. node. apply says_map. kids IH.
  - intros a s. cbn [visit_trait_item lvisit_trait_item trait_item_parts app]. attrs. node. apply done.
  - intros k ts. cbn [visit_trait_item lvisit_trait_item trait_item_parts]. apply says_map, single, node.
  - intros a v d s b IH. rewrite visit_impl_fn, lvisit_impl_fn.
    change (impl_item_parts (MFn a v d s b)) with ([PartAttributes a; PartNode KVis v; PartNode KSig s] ++ flat_map stmt_parts b). cbn [app]. attrs. node. node. kids IH.
  - intros k ts. cbn [visit_impl_item lvisit_impl_item impl_item_parts]. apply says_map, single, node.
Qed.
Lemma stmt_says s : ES s.
Proof.
  destruct s as [i|ts]; unfold ES; [|cbn [visit_stmt lvisit_stmt stmt_parts]; apply says_map, single, other].
  pose proof (item_says i) as IH. unfold EI in IH.
  destruct i; try (cbn [visit_stmt lvisit_stmt]; apply says_map; exact IH). cbn [visit_stmt lvisit_stmt stmt_parts]. apply says_map, single, other.
Qed.
Lemma block_says l : says (visit_block O lookup reparse l) (lvisit_block O lookup reparse l) (parses (block_parts l)).
Proof. apply children. apply Forall_forall. intros s _. apply stmt_says. Qed.
End Visit.

Section Counts.
Context (O : oracles) (lookup : str -> option value).

Lemma stages_count ts : length (substitution_stages O lookup ts) = replacements O lookup ts.
Proof.
  rewrite <- (map_length fst). unfold substitution_stages. rewrite stages_names, map_length. unfold replacements. f_equal.
  apply filter_ext. intros [x|c j|l|d g]; cbn [occurs]; [| reflexivity| |reflexivity].
  - unfold tokens_of. destruct (lookup x); reflexivity.
  - unfold literal_of. destruct (parse_lit_str O [TLit l]) as [[]|]; reflexivity.
Qed.
Lemma stream_count ts : length (stream_parses O lookup ts) = 1 + replacements O lookup ts.
Proof. unfold stream_parses. rewrite app_length, map_length, stages_count. cbn [length]. lia. Qed.
Lemma part_parsed p : length (part_parses O lookup p) = part_count O lookup p.
Proof. unfold part_parses, part_count. rewrite app_length, stream_count. destruct p; reflexivity. Qed.
Lemma parts_parsed l : length (flat_map (part_parses O lookup) l) = total (map (part_count O lookup) l).
Proof. induction l as [|p l IH]; [reflexivity|]. cbn [flat_map map total fold_right]. rewrite app_length, part_parsed. fold (total (map (part_count O lookup) l)). lia. Qed.

(** Sizes *)
Lemma size_app a b : stream_size (a ++ b) = stream_size a + stream_size b.
Proof. induction a as [|t a IH]; [reflexivity|]. cbn [app stream_size fold_right]. fold (stream_size (a ++ b)) (stream_size a). lia. Qed.
Lemma size_cons t a : stream_size (t :: a) = tt_size t + stream_size a.
Proof. reflexivity. Qed.
Lemma size_group d g : tt_size (TGroup d g) = 1 + stream_size g.
Proof. reflexivity. Qed.
Lemma size_one t : 1 <= tt_size t.
Proof. destruct t; cbn; lia. Qed.

Context (w : nat) (Hw : 1 <= w) (Hv : forall x v, lookup x = Some v -> stream_size (to_tokens v) <= w).
Notation al := (tokens_of lookup).
Notation nl := (literal_of O lookup).
Lemma alias_size x ts : al x = Some ts -> stream_size ts <= w.
Proof. unfold tokens_of. destruct (lookup x) as [v|] eqn:E; [|discriminate]. intros [= <-]. eapply Hv; exact E. Qed.

Lemma replaced_size t : stream_size (replaced al nl t) <= w * tt_size t.
Proof.
  induction t as [x|c j|l|d g IH] using tt_ind'.
  - cbn [replaced tt_size]. destruct (al x) as [ts|] eqn:E; [pose proof (alias_size _ _ E); lia|cbn; lia].
  - cbn. lia.
  - cbn [replaced tt_size]. destruct (nl l); cbn; lia.
  - cbn [replaced]. rewrite size_cons, !size_group. cbn [stream_size fold_right]. rewrite Nat.add_0_r.
    cut (stream_size (flat_map (replaced al nl) g) <= w * stream_size g); [nia|].
    induction IH as [|t g Ht _ IHg]; [cbn; lia|]. cbn [flat_map]. rewrite size_app, size_cons. nia.
Qed.
Lemma substituted_size ts : stream_size (substituted O lookup ts) <= w * stream_size ts.
Proof.
  unfold substituted, replaced_stream. induction ts as [|t ts IH]; [cbn; lia|]. cbn [flat_map]. rewrite size_app, size_cons. pose proof (replaced_size t). nia.
Qed.
Lemma stage_size ts : forall s, In s (substitution_stages O lookup ts) -> stream_size (snd s) <= w * stream_size ts.
Proof.
  unfold substitution_stages.
  assert (Hl : forall ts, Forall (fun t => forall s, In s (stages1 al nl t) -> stream_size (snd s) <= w * tt_size t) ts ->
     forall s, In s (stages al nl ts) -> stream_size (snd s) <= w * stream_size ts).
  { clear ts. intros ts H. induction H as [|t ts Ht _ IH]; intros s Hs; [contradiction|]. cbn [stages] in Hs. rewrite size_cons.
    apply in_app_or in Hs as [Hs|Hs]; apply in_map_iff in Hs as (s' & <- & Hs'); cbn [snd]; rewrite size_app.
    - specialize (Ht _ Hs'). nia.
    - specialize (IH _ Hs'). pose proof (replaced_size t). nia. }
  apply Hl. apply Forall_forall. intros t _. clear ts. induction t as [x|c j|l|d g IH] using tt_ind'; intros s Hs; cbn [stages1] in Hs.
  - destruct (al x) as [ts|] eqn:E; [|contradiction]. destruct Hs as [<-|[]]. cbn [snd tt_size]. pose proof (alias_size _ _ E). lia.
  - contradiction.
  - destruct (nl l); [|contradiction]. destruct Hs as [<-|[]]. cbn. lia.
  - apply in_map_iff in Hs as (s' & <- & Hs'). cbn [snd]. rewrite size_cons, !size_group. cbn [stream_size fold_right]. rewrite Nat.add_0_r.
    specialize (Hl _ IH _ Hs'). nia.
Qed.

Lemma total_le l b : (forall n, In n l -> n <= b) -> total l <= length l * b.
Proof.
  induction l as [|n l IH]; intros H; [cbn; lia|]. cbn [total fold_right length]. fold (total l). pose proof (H n (or_introl eq_refl)).
  specialize (IH (fun m Hm => H m (or_intror Hm))). lia.
Qed.
Lemma leaves_size ts : length (leaves ts) <= stream_size ts.
Proof.
  assert (H : forall t, length (leaves1 t) <= tt_size t).
  { induction t as [x|c j|l|d g IH] using tt_ind'; try (cbn; lia). cbn [leaves1]. rewrite size_group.
    cut (length (flat_map leaves1 g) <= stream_size g); [lia|]. induction IH as [|t g Ht _ IHg]; [cbn; lia|].
    cbn [flat_map]. rewrite app_length, size_cons. lia. }
  unfold leaves. induction ts as [|t ts IH]; [cbn; lia|]. cbn [flat_map]. rewrite app_length, size_cons. specialize (H t). lia.
Qed.
Lemma replacements_size ts : replacements O lookup ts <= stream_size ts.
Proof.
  etransitivity; [|apply leaves_size]. unfold replacements. generalize (leaves ts) as l. induction l as [|t l IH]; [apply le_n|].
  cbn [filter]. match goal with |- context [if ?b then _ else _] => destruct b end; cbn [length]; lia.
Qed.
Lemma part_work p : total (map stream_size (part_parses O lookup p)) <= w * (stream_size (part_tokens p) * (stream_size (part_tokens p) + 2)).
Proof.
  etransitivity; [apply (total_le _ (w * stream_size (part_tokens p)))|].
  - intros n Hn. apply in_map_iff in Hn as (ts & <- & Hts). unfold part_parses, stream_parses in Hts. apply in_app_or in Hts as [Hts|Hts].
    + destruct p; try contradiction. destruct Hts as [<-|[]]. cbn [part_tokens]. generalize (stream_size [TGroup Brace ts0]). intros n. nia.
    + apply in_app_or in Hts as [Hts|[<-|[]]]; [|apply substituted_size]. apply in_map_iff in Hts as (s & <- & Hs). apply stage_size. exact Hs.
  - rewrite map_length, part_parsed. unfold part_count. pose proof (replacements_size (part_tokens p)) as H.
    assert (match p with PartStatement _ => 2 | _ => 1 end <= 2) as H2 by (destruct p; lia).
    generalize dependent (stream_size (part_tokens p)). generalize dependent (replacements O lookup (part_tokens p)).
    generalize dependent (match p with PartStatement _ => 2 | _ => 1 end). clear Hv. intros a Ha b c Hc. nia.
Qed.
Lemma parts_work l : let n := total (map (fun p => stream_size (part_tokens p)) l) in
  total (map stream_size (flat_map (part_parses O lookup) l)) <= w * (n * (n + 2)).
Proof.
  induction l as [|p l IH]; [cbn; lia|]. cbn zeta in *. cbn [flat_map map]. rewrite map_app.
  assert (Ha : forall a b, total (a ++ b) = total a + total b) by (induction a as [|x a IHa]; intros b; [reflexivity|]; cbn; fold (total (a ++ b)) (total a); rewrite IHa; lia).
  rewrite Ha. cbn [total fold_right]. fold (total (map (fun p => stream_size (part_tokens p)) l)). pose proof (part_work p) as Hp. revert IH Hp.
  generalize (total (map stream_size (part_parses O lookup p))), (total (map stream_size (flat_map (part_parses O lookup) l))),
    (stream_size (part_tokens p)), (total (map (fun p => stream_size (part_tokens p)) l)). clear. intros a b c d H1 H2.
  etransitivity; [apply Nat.add_le_mono; [exact H2|exact H1]|]. rewrite <- Nat.mul_add_distr_l. apply Nat.mul_le_mono_l. nia.
Qed.
End Counts.

(** Streams without aliases *)
Lemma plain_parses O lookup ts : untouched O lookup ts -> stream_parses O lookup ts = repeat ts (1 + replacements O lookup ts).
Proof.
  intros H. unfold stream_parses. rewrite sub_same by exact H. rewrite <- (stages_count O lookup ts).
  pose proof (stages_same O lookup ts H) as Hs. rewrite Nat.add_1_r || idtac.
  replace (1 + length (substitution_stages O lookup ts)) with (length (substitution_stages O lookup ts) + 1) by lia. rewrite repeat_app. f_equal.
  induction (substitution_stages O lookup ts) as [|s l IH]; [reflexivity|]. cbn [map length repeat]. rewrite (Hs s (or_introl eq_refl)), IH; [reflexivity|].
  intros s' Hs'. apply Hs. right. exact Hs'.
Qed.

Lemma log_same O lookup reparse l : faithful O reparse -> (let! r := lvisit_block O lookup reparse l in Ok (fst r)) = visit_block O lookup reparse l.
Proof.
  intros F. pose proof (block_says O lookup reparse F l) as H. unfold says in H. destruct (visit_block O lookup reparse l); rewrite H; reflexivity.
Qed.
Lemma log_parses O lookup reparse l l' lg : faithful O reparse -> lvisit_block O lookup reparse l = Ok (l', lg) -> lg = flat_map (part_parses O lookup) (block_parts l).
Proof.
  intros F E. pose proof (block_says O lookup reparse F l) as H. unfold says in H. destruct (visit_block O lookup reparse l); rewrite E in H; congruence.
Qed.
Lemma log_count O lookup reparse l l' lg : faithful O reparse -> lvisit_block O lookup reparse l = Ok (l', lg) ->
  length lg = total (map (part_count O lookup) (block_parts l)).
Proof. intros F E. rewrite (log_parses _ _ _ _ _ _ F E). apply parts_parsed. Qed.
Lemma log_work O lookup reparse l l' lg w : faithful O reparse -> 1 <= w -> (forall x v, lookup x = Some v -> stream_size (to_tokens v) <= w) ->
  lvisit_block O lookup reparse l = Ok (l', lg) ->
  let n := total (map (fun p => stream_size (part_tokens p)) (block_parts l)) in total (map stream_size lg) <= w * (n * (n + 2)).
Proof. intros F Hw Hv E. rewrite (log_parses _ _ _ _ _ _ F E). apply parts_work; assumption. Qed.

Lemma plain_log O lookup reparse ts : faithful O reparse -> reparse KBlock [TGroup Brace ts] = Some [TGroup Brace ts] -> untouched O lookup ts ->
  lvisit_block O lookup reparse [SOther ts] = Ok ([SOther ts], repeat [TGroup Brace ts] (2 + replacements O lookup ts)).
Proof.
  intros F Hr Hu. pose proof (block_says O lookup reparse F [SOther ts]) as H. unfold says in H.
  assert (Hv : visit_block O lookup reparse [SOther ts] = Ok [SOther ts]).
  { cbn [visit_block mapM visit_stmt]. rewrite other_total by (auto; exact Hr). reflexivity. }
  rewrite Hv in H. rewrite H. do 2 f_equal. cbn [block_parts flat_map stmt_parts app part_parses part_tokens]. unfold part_parses. cbn [part_tokens]. rewrite app_nil_r.
  rewrite plain_parses by (apply unt_group; exact Hu). unfold replacements, leaves. cbn [flat_map leaves1]. rewrite app_nil_r. reflexivity.
Qed.
(** [n] string literals in one statement and no alias at all. *)
Lemma quadratic O reparse n : faithful O reparse -> parse_lit_str O [TLit (LStr [] [])] = Some ([], []) ->
  let ts := repeat (TLit (LStr [] [])) n in
  reparse KBlock [TGroup Brace ts] = Some [TGroup Brace ts] ->
  exists lg, lvisit_block O (fun _ => None) reparse [SOther ts] = Ok ([SOther ts], lg) /\
    length lg = n + 2 /\ total (map stream_size lg) = (n + 2) * (n + 1).
Proof.
  intros F Hs ts Hr.
  assert (Hl : leaves ts = ts) by (subst ts; clear; induction n as [|n IH]; [reflexivity|]; cbn [repeat]; unfold leaves in *; cbn [flat_map leaves1 app]; rewrite IH; reflexivity).
  assert (Hin : forall t, In t ts -> t = TLit (LStr [] [])) by (intros t Ht; eapply repeat_spec; exact Ht).
  eexists. split; [apply plain_log; [exact F|exact Hr|]|].
  - split; [reflexivity|]. intros l. rewrite Hl. intros H. apply Hin in H. injection H as ->.
    right. exists []. repeat split; [intros []|exact Hs].
  - assert (Hn : replacements O (fun _ => None) ts = n).
    { unfold replacements. rewrite Hl. subst ts. clear -Hs. induction n as [|n IH]; [reflexivity|]. cbn [repeat filter]. rewrite Hs. cbn [length]. rewrite IH. reflexivity. }
    rewrite Hn, repeat_length. split; [lia|].
    assert (Hz : stream_size [TGroup Brace ts] = n + 1).
    { rewrite size_cons, size_group. cbn [stream_size fold_right]. cut (stream_size ts = n); [lia|]. subst ts. clear. induction n as [|n IH]; [reflexivity|].
      cbn [repeat]. rewrite size_cons, IH. reflexivity. }
    generalize dependent [TGroup Brace ts]. intros g _ Hg. rewrite <- Hg. replace (n + 2) with (2 + n) by lia. clear.
    generalize (2 + n). intros m. clear n. induction m as [|m IH]; [reflexivity|]. cbn [repeat map total fold_right]. fold (total (map stream_size (repeat g m))). rewrite IH. reflexivity.
Qed.
