(** Proofs for SpecNaming: inlining and renaming aliases. *)
From Coq Require Import String.
From Verif Require Import Base BaseFacts Token Types TypesProofs Values Ast Env Resolve Eval FormatString SpecFormat FormatProofs SpecSubst Item SpecItem Interpreter SpecOutcome
  SpecElab SpecCalls SpecPrograms SpecNaming
  ElabProofs ElabFacts BuiltinFacts CallFacts ResolveFacts.
Open Scope list_scope.

Definition look (ctx : venv) (v : value) : value :=
  match v with VIdent x => match assoc_str x ctx with Some w => w | None => v end | _ => v end.

(** ** What calls were written like *)
Section Builtins.
Context (O : oracles) (seed first : N).
Let env := new_initialized O seed first.

Lemma raw_takers name fs : get_func_variants env name = Some fs ->
  takes_raw name \/ Forall (fun f => f_arg_types f <> [TyRaw]) fs.
Proof.
  intros H. apply builtin_variants in H as (k & vs & Hin & ->).
  assert (Ht : takes_raw name \/ Forall (fun r => fst (fst r) <> [TyRaw]) vs).
  { unfold table in Hin.
    repeat (cbn [In] in Hin; destruct Hin as [E|Hin]; [injection E as <- <-;
      first [ left; left; reflexivity | left; right; reflexivity
            | right; repeat (constructor; [cbn; discriminate|]); constructor ]|]).
    contradiction. }
  destruct Ht as [Ht|Ht]; [left; exact Ht|right]. apply Forall_forall. intros f Hf.
  apply number_variants_in in Hf as [Hf _]. rewrite Forall_forall in Ht. exact (Ht _ Hf).
Qed.

Lemma elab_func_raw f args raw raw' ex : f_arg_types f <> [TyRaw] -> elab_func f args raw ex = elab_func f args raw' ex.
Proof.
  intros H. unfold elab_func. destruct (f_arg_types f) as [|t ts] eqn:E; [reflexivity|].
  destruct t; try reflexivity. destruct ts; [congruence|reflexivity].
Qed.
Lemma viable_raw fs args raw raw' ex : Forall (fun f => f_arg_types f <> [TyRaw]) fs ->
  viable fs args raw ex = viable fs args raw' ex.
Proof.
  induction 1 as [|f fs Hf _ IH]; [reflexivity|]. cbn [viable]. rewrite (elab_func_raw f args raw raw' ex Hf), IH. reflexivity.
Qed.

Lemma elab_same_but_raw G e : forall e', same_but_raw e e' -> forall ex, elab env G e ex = elab env G e' ex.
Proof.
  induction e as [id v|id name args raw IH] using expr_ind'; intros e' H ex; inversion H as [|? ? ? ? ? ? ? Ha Hr]; subst; [reflexivity|].
  cbn [elab].
  assert (Hargs : Forall2 (fun a b : elaborator => forall ex, a ex = b ex) (map (elab env G) args) (map (elab env G) args')).
  { clear H Hr. revert args' Ha. induction IH as [|x args Hx _ IHa]; intros args' Ha; inversion Ha; subst; cbn [map]; constructor; auto. }
  destruct (get_func_variants env name) as [fs|] eqn:Eg; [|reflexivity].
  rewrite (viable_ext fs _ _ _ ex Hargs).
  destruct (raw_takers name fs Eg) as [Ht|Ht].
  - rewrite (Hr Ht). reflexivity.
  - rewrite (viable_raw fs _ (option_map snd raw) (option_map snd raw') ex Ht). reflexivity.
Qed.

(** ** Leaves related by [VR] in related scopes *)
Section Leaves.
Context (VR : value -> value -> Prop) (IG : tenv -> tenv -> Prop) (IC : venv -> venv -> Prop) (good : str -> Prop).
Hypothesis VR_type : forall G G' v v', IG G G' -> VR v v' -> static_type G v = static_type G' v'.
Hypothesis IG_free : forall G G' n, IG G G' -> good n -> (assoc_str n G = None <-> assoc_str n G' = None).
Hypothesis IG_cons : forall G G' n t, IG G G' -> good n -> assoc_str n G = None -> IG ((n, t) :: G) ((n, t) :: G').
Hypothesis VR_value : forall ctx ctx' v v', IC ctx ctx' -> VR v v' -> look ctx v = look ctx' v'.

Inductive leafrel : expr -> expr -> Prop :=
| LrVal id id' v v' : VR v v' -> leafrel (EValue id v) (EValue id' v')
| LrCall id id' name args args' raw raw' :
    Forall2 leafrel args args' ->
    (takes_raw name -> option_map snd raw = option_map snd raw') ->
    leafrel (ECall id name args raw) (ECall id' name args' raw').
Hypothesis VR_raw : forall ts, VR (VRaw ts) (VRaw ts).

Lemma split_leafrel e : forall e', leafrel e e' -> forall G G', IG G G' ->
  exists e1, xrel VR G G' e e1 /\ same_but_raw e1 e'.
Proof.
  induction e as [id v|id name args raw IH] using expr_ind'; intros e' H G G' HG; inversion H as [? ? ? ? Hv|? ? ? ? ? ? ? Ha Hr]; subst.
  - exists (EValue id' v'). split; [constructor; [exact Hv|]|constructor]. apply VR_type; assumption.
  - assert (Hl : exists l, Forall2 (xrel VR G G') args l /\ Forall2 same_but_raw l args').
    { clear H Hr. revert args' Ha. induction IH as [|x args Hx _ IHa]; intros args' Ha; inversion Ha as [|? y ? l' Hxy Hl']; subst.
      - exists []. split; constructor.
      - destruct (Hx _ Hxy G G' HG) as (e1 & E1 & E2). destruct (IHa _ Hl') as (l & L1 & L2).
        exists (e1 :: l). split; constructor; assumption. }
    destruct Hl as (l & L1 & L2). exists (ECall id name l raw). split; [|constructor; assumption].
    constructor; [exact L1|]. destruct raw as [[r ts]|]; cbn; [apply VR_raw|exact I].
Qed.

Lemma funcs_eq : forall name,
  match get_func_variants env name, get_func_variants env name with
  | Some fs, Some fs' => Forall2 eq fs fs' | None, None => True | _, _ => False end.
Proof. intros name. destruct (get_func_variants env name) as [fs|]; [|exact I]. induction fs; constructor; auto. Qed.

Lemma elab_leafrel e e' G G' ex : leafrel e e' -> IG G G' -> orel eq VR (elab env G e ex) (elab env G' e' ex).
Proof.
  intros H HG. destruct (split_leafrel e e' H G G' HG) as (e1 & H1 & H2).
  rewrite <- (elab_same_but_raw G' e1 e' H2 ex).
  exact (elab_rel eq VR (fun f f' H => match H with eq_refl => conj eq_refl eq_refl end)
    (fun f f' g g' H H' => match H, H' with eq_refl, eq_refl => eq_refl end) env env G G' funcs_eq e e1 H1 ex).
Qed.

Lemma run_leafrel te : forall te' ctx ctx', trel eq VR te te' -> IC ctx ctx' -> run O seed ctx te = run O seed ctx' te'.
Proof.
  induction te as [v t|f args t IH] using texpr_ind'; intros te' ctx ctx' H HC; inversion H as [? ? ? Hv|? ? ? ? ? Hf Ha]; subst; cbn [run].
  - change (coerced (try_cast O (look ctx v) t) = coerced (try_cast O (look ctx' v') t)). rewrite (VR_value ctx ctx' v v' HC Hv). reflexivity.
  - assert (E : mapM (run O seed ctx) args = mapM (run O seed ctx') args').
    { clear H. revert args' Ha. induction IH as [|x args Hx _ IHa]; intros args' Ha; inversion Ha; subst; [reflexivity|].
      cbn. rewrite (Hx _ ctx ctx' H1 HC). destruct (run O seed ctx' y); try reflexivity. cbn [bind]. rewrite (IHa _ H3). reflexivity. }
    rewrite E. reflexivity.
Qed.

Lemma elab_items_leafrel items : forall items' G G', IG G G' -> Forall good (map fst items) ->
  Forall2 (fun it it' => fst it = fst it' /\ leafrel (snd it) (snd it')) items items' ->
  match elab_items env G items, elab_items env G' items' with
  | Ok tis, Ok tis' => Forall2 (fun a b => fst a = fst b /\ trel eq VR (snd a) (snd b)) tis tis' 
  | Err e, Err e' => e = e'
  | _, _ => False
  end.
Proof.
  induction items as [|[n e] items IH]; intros items' G G' HG Hgood H; inversion H as [|? [n' e'] ? rest [Hn He] Hi]; subst; [constructor|].
  cbn in Hn, He. subst n'. cbn [map] in Hgood. apply Forall_cons_iff in Hgood as [Hg Hgood]. cbn [elab_items].
  pose proof (elab_leafrel e e' G G' None He HG) as Hr. unfold orel in Hr.
  destruct (elab env G e None) as [[te c]|er], (elab env G' e' None) as [[te' c']|er']; try contradiction; [|exact Hr].
  destruct Hr as [Ht ->]. pose proof (IG_free G G' n HG Hg) as Hfree.
  destruct (assoc_str n G) eqn:E1, (assoc_str n G') eqn:E2.
  - reflexivity.
  - destruct Hfree as [_ Hf]. discriminate (Hf eq_refl).
  - destruct Hfree as [Hf _]. discriminate (Hf eq_refl).
  - rewrite <- (trel_target _ _ _ _ Ht).
    specialize (IH rest ((n, target_of te) :: G) ((n, target_of te) :: G') (IG_cons G G' n _ HG Hg E1) Hgood Hi).
    destruct (elab_items env _ items), (elab_items env _ rest); try contradiction; cbn [bind]; [|exact IH].
    constructor; [|exact IH]. auto.
Qed.

Hypothesis IC_cons : forall ctx ctx' n v, IC ctx ctx' -> good n -> assoc_str n ctx = None -> IC ((n, v) :: ctx) ((n, v) :: ctx').

Lemma run_items_leafrel tis : forall tis' ctx ctx', IC ctx ctx' -> Forall good (map fst tis) ->
  NoDup (map fst tis) -> (forall n, In n (map fst tis) -> assoc_str n ctx = None) ->
  Forall2 (fun a b => fst a = fst b /\ trel eq VR (snd a) (snd b)) tis tis' ->
  run_items O seed ctx tis = run_items O seed ctx' tis'.
Proof.
  induction tis as [|[n te] tis IH]; intros tis' ctx ctx' HC Hgood Hnd Hfree H; inversion H as [|? [n' te'] ? rest [Hn Ht] Hr]; subst; [reflexivity|].
  cbn in Hn, Ht. subst n'. cbn [map fst] in Hgood, Hnd, Hfree. apply Forall_cons_iff in Hgood as [Hg Hgood]. inversion Hnd as [|? ? Hni Hnd']; subst.
  cbn [run_items]. rewrite (run_leafrel te te' ctx ctx' Ht HC). destruct (run O seed ctx' te') as [v| |]; try reflexivity. cbn [bind].
  rewrite (IH rest ((n, v) :: ctx) ((n, v) :: ctx')); [reflexivity| |exact Hgood|exact Hnd'| |exact Hr].
  - apply IC_cons; [exact HC|exact Hg|]. apply Hfree. left; reflexivity.
  - intros m Hm. cbn [assoc_str]. destruct (str_eqb m n) eqn:E; [apply str_eqb_eq in E as ->; contradiction|]. apply Hfree. right; exact Hm.
Qed.
End Leaves.

(** ** A first part, evaluated, and the rest *)
Lemma ctx_ok_of tis bs :
  Forall2 (fun ti b => fst ti = fst b /\ type_of (snd b) = target_of (snd ti)) tis bs -> ctx_ok (tenv_of tis) (rev bs).
Proof.
  intros H. unfold tenv_of, ctx_ok. apply Forall2_rev.
  induction H as [|[n te] [m v] tis bs [E1 E2] _ IH]; cbn; constructor; auto.
Qed.

Lemma bindings_split items1 items2 :
  bindings O env (items1 ++ items2) =
  let! t1 := elab_items env [] items1 in
  let! t2 := elab_items env (tenv_of t1) items2 in
  let! b1 := run_items O seed [] t1 in
  let! b2 := run_items O seed (rev b1) t2 in
  Ok (b1 ++ b2).
Proof.
  unfold bindings. rewrite elab_items_app. destruct (elab_items env [] items1) as [t1| |]; try reflexivity. cbn [bind].
  rewrite app_nil_r. destruct (elab_items env (tenv_of t1) items2) as [t2| |]; try reflexivity. cbn [bind].
  change (e_seed env) with seed. rewrite run_items_app. destruct (run_items O seed [] t1) as [b1| |]; try reflexivity. cbn [bind].
  rewrite app_nil_r. reflexivity.
Qed.

(** ** Inlining *)
Section Inline.
Context (a : str) (w : value).
Definition inl_values (v v' : value) : Prop := v = v' \/ (v = VIdent a /\ v' = w).
Definition inl_types (G G' : tenv) : Prop := G = G' /\ assoc_str a G = Some (static_type G w).
Definition inl_ctx (ctx ctx' : venv) : Prop := ctx = ctx' /\ assoc_str a ctx = Some (look ctx w).
Definition inl_good (n : str) : Prop := w <> VIdent n.

Lemma inl_type G G' v v' : inl_types G G' -> inl_values v v' -> static_type G v = static_type G' v'.
Proof. intros [<- H] [<-|[-> ->]]; [reflexivity|]. cbn [static_type]. rewrite H. reflexivity. Qed.
Lemma inl_value ctx ctx' v v' : inl_ctx ctx ctx' -> inl_values v v' -> look ctx v = look ctx' v'.
Proof. intros [<- H] [<-|[-> ->]]; [reflexivity|]. cbn [look]. rewrite H. reflexivity. Qed.
Lemma inl_types_cons G G' n t : inl_types G G' -> inl_good n -> assoc_str n G = None -> inl_types ((n, t) :: G) ((n, t) :: G').
Proof.
  intros [<- H] Hg Hn. split; [reflexivity|]. unfold inl_good in Hg.
  assert (Hna : str_eqb a n = false).
  { destruct (str_eqb a n) eqn:E; [|reflexivity]. apply str_eqb_eq in E as ->. congruence. }
  cbn [assoc_str]. rewrite Hna, H. f_equal. destruct w as [x| | | | | | |]; try reflexivity. cbn [static_type assoc_str].
  destruct (str_eqb x n) eqn:E; [|reflexivity]. apply str_eqb_eq in E as ->. destruct (Hg eq_refl).
Qed.
Lemma inl_ctx_cons ctx ctx' n v : inl_ctx ctx ctx' -> inl_good n -> assoc_str n ctx = None -> inl_ctx ((n, v) :: ctx) ((n, v) :: ctx').
Proof.
  intros [<- H] Hg Hn. split; [reflexivity|]. unfold inl_good in Hg.
  assert (Hna : str_eqb a n = false).
  { destruct (str_eqb a n) eqn:E; [|reflexivity]. apply str_eqb_eq in E as ->. congruence. }
  cbn [assoc_str]. rewrite Hna, H. f_equal. destruct w as [x| | | | | | |]; try reflexivity. cbn [look assoc_str].
  destruct (str_eqb x n) eqn:E; [|reflexivity]. apply str_eqb_eq in E as ->. destruct (Hg eq_refl).
Qed.

Lemma inlined_leafrel e : forall e', inlined a w e e' -> leafrel inl_values e e'.
Proof.
  induction e as [id v|id name args raw IH] using expr_ind'; intros e' H; inversion H as [? ?|? ? ?|? ? ? ? ? ? ? Ha Hr]; subst.
  - constructor. right. split; reflexivity.
  - constructor. left. reflexivity.
  - constructor; [|exact Hr]. clear H Hr. revert args' Ha. induction IH as [|x args Hx _ IHa]; intros args' Ha; inversion Ha; subst; constructor; auto.
Qed.

Lemma bindings_inline pre id post post' :
  inlined_items a w post post' -> (forall y, w = VIdent y -> ~ In y (map fst post)) ->
  bindings O env ((pre ++ [(a, EValue id w)]) ++ post) = bindings O env ((pre ++ [(a, EValue id w)]) ++ post').
Proof.
  intros Hi Hw. rewrite !bindings_split.
  assert (Hgood : Forall inl_good (map fst post)).
  { apply Forall_forall. intros n Hn E. exact (Hw n E Hn). }
  destruct (elab_items env [] (pre ++ [(a, EValue id w)])) as [t1| |] eqn:E1; [cbn [bind]|reflexivity|reflexivity].
  pose proof (items_sound O seed first _ [] [] t1 (Forall2_nil _) E1) as Hs.
  rewrite elab_items_app in E1. apply bind_Ok in E1 as (tp & Ep & E1). apply bind_Ok in E1 as (ta & Ea & E1). injection E1 as <-.
  cbn [elab_items] in Ea. destruct (elab env (tenv_of tp ++ []) (EValue id w) None) as [[te c]|] eqn:Ee; [|discriminate].
  cbn [elab] in Ee. rewrite cost_same in Ee. injection Ee as <- _.
  destruct (assoc_str a (tenv_of tp ++ [])) eqn:Efree; [discriminate|]. cbn [bind] in Ea. injection Ea as <-.
  rewrite app_nil_r in *.
  assert (Hst : static_type ((a, static_type (tenv_of tp) w) :: tenv_of tp) w = static_type (tenv_of tp) w).
  { destruct w as [x| | | | | | |]; try reflexivity. cbn [static_type assoc_str]. destruct (str_eqb x a) eqn:E; [|reflexivity].
    apply str_eqb_eq in E as ->. rewrite Efree. reflexivity. }
  assert (HG : tenv_of (tp ++ [(a, TEVal w (static_type (tenv_of tp) w))]) = (a, static_type (tenv_of tp) w) :: tenv_of tp).
  { unfold tenv_of. rewrite map_app, rev_app_distr. reflexivity. }
  assert (HIG : inl_types (tenv_of (tp ++ [(a, TEVal w (static_type (tenv_of tp) w))])) (tenv_of (tp ++ [(a, TEVal w (static_type (tenv_of tp) w))]))).
  { rewrite HG. split; [reflexivity|]. rewrite Hst. cbn [assoc_str]. rewrite str_eqb_refl. reflexivity. }
  pose proof (elab_items_leafrel inl_values inl_types inl_good inl_type (fun G G' n (H : inl_types G G') _ => match H with conj e _ => match e with eq_refl => conj (fun x => x) (fun x => x) end end)
    inl_types_cons (fun ts => or_introl eq_refl) post post' _ _ HIG Hgood) as Hel.
  assert (Hl : Forall2 (fun it it' : str * expr => fst it = fst it' /\ leafrel inl_values (snd it) (snd it')) post post').
  { clear - Hi. induction Hi as [|[n e] [n' e'] l l' [H1 H2] _ IH]; constructor; [|exact IH]. split; [exact H1|]. apply inlined_leafrel. exact H2. }
  specialize (Hel Hl).
  unfold alias in *. set (G := tenv_of (tp ++ [(a, TEVal w (static_type (tenv_of tp) w))])) in *.
  destruct (elab_items env G post) as [t2| |] eqn:E2, (elab_items env G post') as [t2'| |] eqn:E2'; try contradiction; cbn [bind]; [|rewrite Hel; reflexivity].
  destruct (run_items O seed [] (tp ++ [(a, TEVal w (static_type (tenv_of tp) w))])) as [b1| |] eqn:Er; [cbn [bind]|reflexivity|reflexivity].
  pose proof (ctx_ok_of _ _ Hs) as Hok. fold G in Hok.
  rewrite run_items_app in Er. apply bind_Ok in Er as (bp & Erp & Er). apply bind_Ok in Er as (ba & Era & Er). injection Er as <-.
  rewrite app_nil_r in Era. cbn [run_items] in Era.
  pose proof (items_sound O seed first pre [] [] tp (Forall2_nil _) Ep) as Hsp. rewrite Erp in Hsp. apply ctx_ok_of in Hsp.
  assert (Hv : run O seed (rev bp) (TEVal w (static_type (tenv_of tp) w)) = Ok (look (rev bp) w)).
  { cbn [run]. change (coerced (try_cast O (look (rev bp) w) (static_type (tenv_of tp) w)) = Ok (look (rev bp) w)).
    rewrite <- (ctx_ok_value _ _ w Hsp). fold (look (rev bp) w). rewrite cast_same. reflexivity. }
  rewrite Hv in Era. cbn [bind] in Era. injection Era as <-.
  assert (Hfree : assoc_str a (rev bp) = None).
  { apply assoc_str_None. rewrite map_rev, <- in_rev, (run_items_names _ _ _ _ _ Erp).
    apply assoc_str_None in Efree. rewrite tenv_of_names, <- in_rev in Efree. exact Efree. }
  rewrite (run_items_leafrel inl_values inl_ctx inl_good inl_value inl_ctx_cons t2 t2' _ (rev (bp ++ [(a, look (rev bp) w)]))); [reflexivity| | | | |exact Hel].
  - split; [reflexivity|]. rewrite rev_app_distr. cbn [rev app assoc_str]. rewrite str_eqb_refl. f_equal.
    destruct w as [x| | | | | | |]; try reflexivity. cbn [look assoc_str]. destruct (str_eqb x a) eqn:E; [|reflexivity].
    apply str_eqb_eq in E as ->. rewrite Hfree. reflexivity.
  - rewrite (elab_items_names _ _ _ _ E2). exact Hgood.
  - rewrite (elab_items_names _ _ _ _ E2). apply (elab_items_NoDup _ _ _ _ E2).
  - intros n Hn. apply assoc_str_None. rewrite (elab_items_names _ _ _ _ E2) in Hn.
    pose proof (proj2 (elab_items_NoDup _ _ _ _ E2) n Hn) as Hd. intros Hin. apply Hd.
    clear - Hok Hin. unfold alias in *. revert Hok Hin. generalize (rev (bp ++ [(a, look (rev bp) w)])). intros ctx Hok Hin.
    replace (map fst G) with (map fst ctx); [exact Hin|].
    clear Hin. induction Hok as [|x y l l' [H1 _] _ IH]; [reflexivity|]. cbn [map]. rewrite IH, H1. reflexivity.
Qed.
End Inline.

(** ** Renaming *)
Section Rename.
Context (a b : str).
Definition ren_values (v v' : value) : Prop := (v = VIdent a /\ v' = VIdent b) \/ (v = v' /\ v <> VIdent a /\ v <> VIdent b).
Definition ren_assoc {A} (l l' : list (str * A)) : Prop := exists l1 t l0,
  l = l1 ++ (a, t) :: l0 /\ l' = l1 ++ (b, t) :: l0 /\
  (forall n, In n (map fst l1) \/ In n (map fst l0) -> n <> a /\ n <> b).
Definition ren_good (n : str) : Prop := n <> a /\ n <> b.

Lemma str_eqb_neq x y : x <> y -> str_eqb x y = false.
Proof. intros H. destruct (str_eqb x y) eqn:E; [|reflexivity]. apply str_eqb_eq in E. contradiction. Qed.

Lemma assoc_middle {A} x (l1 : list (str * A)) t l0 : ~ In x (map fst l1) -> assoc_str x (l1 ++ (x, t) :: l0) = Some t.
Proof. intros H. rewrite assoc_str_skip by exact H. cbn. rewrite str_eqb_refl. reflexivity. Qed.
Lemma assoc_other {A} x y z (l1 : list (str * A)) t l0 : x <> y -> x <> z ->
  assoc_str x (l1 ++ (y, t) :: l0) = assoc_str x (l1 ++ (z, t) :: l0).
Proof.
  intros Hy Hz. induction l1 as [|[m u] l1 IH]; cbn; [rewrite !str_eqb_neq by assumption; reflexivity|].
  destruct (str_eqb x m); [reflexivity|exact IH].
Qed.

Lemma ren_lookup {A} (l l' : list (str * A)) x : ren_assoc l l' -> x <> a -> x <> b -> assoc_str x l = assoc_str x l'.
Proof. intros (l1 & t & l0 & -> & -> & _) Ha Hb. apply assoc_other; assumption. Qed.
Lemma ren_lookup_here {A} (l l' : list (str * A)) : ren_assoc l l' -> exists t, assoc_str a l = Some t /\ assoc_str b l' = Some t.
Proof.
  intros (l1 & t & l0 & -> & -> & H). exists t. split; apply assoc_middle; intros Hin; destruct (H _ (or_introl Hin)); contradiction.
Qed.
Lemma ren_cons {A} (l l' : list (str * A)) n t : ren_assoc l l' -> ren_good n -> assoc_str n l = None -> ren_assoc ((n, t) :: l) ((n, t) :: l').
Proof.
  intros (l1 & u & l0 & -> & -> & H) Hg _. exists ((n, t) :: l1), u, l0. split; [reflexivity|]. split; [reflexivity|].
  intros m [[<-|Hm]|Hm]; [exact Hg|apply H; auto|apply H; auto].
Qed.
Lemma ren_free (G G' : tenv) n : ren_assoc G G' -> ren_good n -> (assoc_str n G = None <-> assoc_str n G' = None).
Proof. intros H [Ha Hb]. rewrite (ren_lookup G G' n H Ha Hb). reflexivity. Qed.
Lemma ren_type (G G' : tenv) v v' : ren_assoc G G' -> ren_values v v' -> static_type G v = static_type G' v'.
Proof.
  intros H [[-> ->]|(<- & Ha & Hb)].
  - destruct (ren_lookup_here G G' H) as (t & H1 & H2). cbn [static_type]. rewrite H1, H2. reflexivity.
  - destruct v as [x| | | | | | |]; try reflexivity. cbn [static_type]. rewrite (ren_lookup G G' x H) by congruence. reflexivity.
Qed.
Lemma ren_value (ctx ctx' : venv) v v' : ren_assoc ctx ctx' -> ren_values v v' -> look ctx v = look ctx' v'.
Proof.
  intros H [[-> ->]|(<- & Ha & Hb)].
  - destruct (ren_lookup_here ctx ctx' H) as (t & H1 & H2). cbn [look]. rewrite H1, H2. reflexivity.
  - destruct v as [x| | | | | | |]; try reflexivity. cbn [look]. rewrite (ren_lookup ctx ctx' x H) by congruence. reflexivity.
Qed.

Lemma renamed_leafrel e : forall e', renamed a b e e' -> leafrel ren_values e e'.
Proof.
  induction e as [id v|id name args raw IH] using expr_ind'; intros e' H; inversion H as [? ?|? ? ? H1 H2|? ? ? ? ? ? ? Ha Hr]; subst.
  - constructor. left. split; reflexivity.
  - constructor. right. auto.
  - constructor; [|exact Hr]. clear H Hr. revert args' Ha. induction IH as [|x args Hx _ IHa]; intros args' Ha; inversion Ha; subst; constructor; auto.
Qed.

Lemma rename_none (bs : venv) : ~ In a (map fst bs) -> rename_bindings a b bs = bs.
Proof.
  unfold rename_bindings. induction bs as [|[n v] bs IH]; intros H; [reflexivity|]. cbn in H |- *. rewrite IH by auto.
  rewrite str_eqb_neq by auto. reflexivity.
Qed.

Lemma bindings_rename pre e post post' :
  renamed_items a b post post' ->
  (forall n, In n (map fst pre) \/ In n (map fst post) -> n <> a /\ n <> b) ->
  bindings O env ((pre ++ [(b, e)]) ++ post') =
  let! bs := bindings O env ((pre ++ [(a, e)]) ++ post) in Ok (rename_bindings a b bs).
Proof.
  intros Hi Hn. rewrite !bindings_split. rewrite !elab_items_app.
  destruct (elab_items env [] pre) as [tp| |] eqn:Ep; [cbn [bind]|reflexivity|reflexivity]. rewrite app_nil_r.
  cbn [elab_items]. destruct (elab env (tenv_of tp) e None) as [[te c]|er]; [|reflexivity].
  assert (Hnames : map fst tp = map fst pre) by (eapply elab_items_names; exact Ep).
  assert (Hfree : forall x, x = a \/ x = b -> assoc_str x (tenv_of tp) = None).
  { intros x Hx. apply assoc_str_None. rewrite tenv_of_names, <- in_rev, Hnames. intros Hin.
    destruct (Hn x (or_introl Hin)) as [H1 H2]. destruct Hx; contradiction. }
  rewrite !Hfree by auto. cbn [bind].
  assert (HG : forall x, tenv_of (tp ++ [(x, te)]) = (x, target_of te) :: tenv_of tp).
  { intros x. unfold tenv_of. rewrite map_app, rev_app_distr. reflexivity. }
  assert (HIG : ren_assoc (tenv_of (tp ++ [(a, te)])) (tenv_of (tp ++ [(b, te)]))).
  { rewrite !HG. exists [], (target_of te), (tenv_of tp). split; [reflexivity|]. split; [reflexivity|].
    intros n [[]|Hin]. apply Hn. left. rewrite tenv_of_names, <- in_rev, Hnames in Hin. exact Hin. }
  assert (Hgood : Forall ren_good (map fst post)).
  { apply Forall_forall. intros n Hin. apply Hn. auto. }
  assert (Hl : Forall2 (fun it it' : str * expr => fst it = fst it' /\ leafrel ren_values (snd it) (snd it')) post post').
  { clear - Hi. induction Hi as [|[n e] [n' e'] l l' [H1 H2] _ IH]; constructor; [|exact IH]. split; [exact H1|]. apply renamed_leafrel. exact H2. }
  pose proof (elab_items_leafrel ren_values ren_assoc ren_good ren_type ren_free ren_cons
    (fun ts => or_intror (conj eq_refl (conj (fun H : VRaw ts = VIdent a => match H with end) (fun H : VRaw ts = VIdent b => match H with end))))
    post post' _ _ HIG Hgood Hl) as Hel.
  unfold alias in *.
  destruct (elab_items env (tenv_of (tp ++ [(a, te)])) post) as [t2| |] eqn:E2,
    (elab_items env (tenv_of (tp ++ [(b, te)])) post') as [t2'| |] eqn:E2'; try contradiction; cbn [bind]; [|rewrite Hel; reflexivity].
  rewrite !run_items_app. destruct (run_items O seed [] tp) as [bp| |] eqn:Erp; [cbn [bind]|reflexivity|reflexivity].
  rewrite app_nil_r. cbn [run_items].
  destruct (run O seed (rev bp) te) as [v| |] eqn:Ev; [cbn [bind]|reflexivity|reflexivity].
  assert (Hbp : map fst bp = map fst pre) by (rewrite (run_items_names _ _ _ _ _ Erp); exact Hnames).
  assert (HIC : ren_assoc (rev (bp ++ [(a, v)])) (rev (bp ++ [(b, v)]))).
  { rewrite !rev_app_distr. exists [], v, (rev bp). split; [reflexivity|]. split; [reflexivity|].
    intros n [[]|Hin]. apply Hn. left. rewrite map_rev, <- in_rev, Hbp in Hin. exact Hin. }
  pose proof (run_items_leafrel ren_values ren_assoc ren_good ren_value ren_cons t2 t2' _ _ HIC) as Hrun.
  rewrite <- Hrun; [clear Hrun| | | |exact Hel].
  - destruct (run_items O seed (rev (bp ++ [(a, v)])) t2) as [b2| |] eqn:Er2; [cbn [bind]|reflexivity|reflexivity].
    unfold rename_bindings. rewrite !map_app. fold (rename_bindings a b bp). fold (rename_bindings a b b2).
    cbn [map fst snd]. rewrite str_eqb_refl. rewrite !rename_none; [reflexivity| |].
    + rewrite (run_items_names _ _ _ _ _ Er2), (elab_items_names _ _ _ _ E2). intros Hin. destruct (Hn a (or_intror Hin)); contradiction.
    + rewrite Hbp. intros Hin. destruct (Hn a (or_introl Hin)); contradiction.
  - rewrite (elab_items_names _ _ _ _ E2). exact Hgood.
  - rewrite (elab_items_names _ _ _ _ E2). apply (elab_items_NoDup _ _ _ _ E2).
  - intros n Hin. apply assoc_str_None. rewrite (elab_items_names _ _ _ _ E2) in Hin.
    pose proof (proj2 (elab_items_NoDup _ _ _ _ E2) n Hin) as Hd. intros Hx. apply Hd.
    rewrite tenv_of_names, <- in_rev, map_app, Hnames. rewrite map_rev, <- in_rev, map_app, Hbp in Hx. exact Hx.
Qed.
End Rename.
End Builtins.

(** ** For the modelled pipeline *)
Lemma naming_plain O seed n pre a id w post post' c :
  NoDup (item_ids (pre ++ (a, EValue id w) :: post)) -> NoDup (item_ids (pre ++ (a, EValue id w) :: post')) ->
  inlined_items a w post post' -> (forall y, w = VIdent y -> ~ In y (map fst post)) ->
  make_substitutions O (new_initialized O seed n) {| spec_items := pre ++ (a, EValue id w) :: post; is_comma_used := c |} =
  make_substitutions O (new_initialized O seed n) {| spec_items := pre ++ (a, EValue id w) :: post'; is_comma_used := c |}.
Proof.
  intros Hnd Hnd' Hi Hw. rewrite !make_substitutions_spec by assumption. cbn [spec_items].
  change (pre ++ (a, EValue id w) :: post) with (pre ++ [(a, EValue id w)] ++ post).
  change (pre ++ (a, EValue id w) :: post') with (pre ++ [(a, EValue id w)] ++ post'). rewrite !app_assoc.
  apply bindings_inline; assumption.
Qed.

Lemma renaming O seed n pre a b e post post' c :
  NoDup (item_ids (pre ++ (a, e) :: post)) -> NoDup (item_ids (pre ++ (b, e) :: post')) ->
  renamed_items a b post post' ->
  (forall x, In x (map fst pre) \/ In x (map fst post) -> x <> a /\ x <> b) ->
  make_substitutions O (new_initialized O seed n) {| spec_items := pre ++ (b, e) :: post'; is_comma_used := c |} =
  let! bs := make_substitutions O (new_initialized O seed n) {| spec_items := pre ++ (a, e) :: post; is_comma_used := c |} in
  Ok (rename_bindings a b bs).
Proof.
  intros Hnd Hnd' Hi Hw. rewrite !make_substitutions_spec by assumption. cbn [spec_items].
  change (pre ++ (a, e) :: post) with (pre ++ [(a, e)] ++ post).
  change (pre ++ (b, e) :: post') with (pre ++ [(b, e)] ++ post'). rewrite !app_assoc.
  apply bindings_rename; assumption.
Qed.

(** ** In the code *)
Lemma rename_lookup_here a b (bs : list (str * value)) : ~ In b (map fst bs) -> assoc_str a bs = assoc_str b (rename_bindings a b bs).
Proof.
  unfold rename_bindings. induction bs as [|[n v] bs IH]; intros H; [reflexivity|]. cbn in H |- *.
  destruct (str_eqb n a) eqn:E.
  - apply str_eqb_eq in E as ->. rewrite !str_eqb_refl. reflexivity.
  - rewrite (str_eqb_neq b n) by auto. rewrite str_eqb_neq; [apply IH; auto|]. intros ->. rewrite str_eqb_refl in E. discriminate.
Qed.
Lemma rename_lookup_other a b (bs : list (str * value)) x : x <> a -> x <> b -> assoc_str x bs = assoc_str x (rename_bindings a b bs).
Proof.
  unfold rename_bindings. intros Ha Hb. induction bs as [|[n v] bs IH]; [reflexivity|]. cbn.
  destruct (str_eqb n a) eqn:E.
  - apply str_eqb_eq in E as ->. rewrite !str_eqb_neq by assumption. exact IH.
  - destruct (str_eqb x n); [reflexivity|exact IH].
Qed.

Section TokenInd.
  Variable P : tt -> Prop.
  Hypothesis Hi : forall x, P (TIdent x).
  Hypothesis Hp : forall c s, P (TPunct c s).
  Hypothesis Hl : forall l, P (TLit l).
  Hypothesis Hg : forall d ts, Forall P ts -> P (TGroup d ts).
  Fixpoint tt_ind2 (t : tt) : P t :=
    match t with
    | TIdent x => Hi x
    | TPunct c s => Hp c s
    | TLit l => Hl l
    | TGroup d ts => Hg d ts ((fix go l : Forall P l := match l with [] => Forall_nil _ | t :: r => Forall_cons _ (tt_ind2 t) (go r) end) ts)
    end.
End TokenInd.

Section Code.
Context (O : oracles) (a b : str) (bs : list (str * value)).
Hypothesis bound : In a (map fst bs).
Hypothesis fresh : ~ In b (map fst bs).
Let lookup x := assoc_str x bs.
Let lookup' x := assoc_str x (rename_bindings a b bs).

Lemma renamed_format s s' : renamed_text O a b s s' -> format_string O lookup s = format_string O lookup' s'.
Proof.
  intros (ps & ps' & tail & Hw & Hw' & HF & -> & ->). rewrite !format_meaning by assumption.
  unfold meaning. f_equal. f_equal. clear Hw Hw'. induction HF as [|p p' ps ps' Hp _ IH]; [reflexivity|]. cbn [map].
  rewrite IH. f_equal. destruct Hp as [t t' k Ht Ht'|p Hp].
  - cbn [meaning1]. rewrite Ht, Ht'. unfold vo, lookup, lookup'. rewrite <- rename_lookup_here by exact fresh.
    destruct (assoc_str a bs) eqn:E; [reflexivity|]. apply assoc_str_None in E. contradiction.
  - destruct p as [t|t k|k]; try reflexivity. destruct (Hp t k eq_refl) as [H1 H2]. cbn [meaning1].
    unfold vo, lookup, lookup'. rewrite <- (rename_lookup_other a b bs _ H1 H2). reflexivity.
Qed.

Lemma renamed_replaced t : forall t', renamed_token O a b t t' ->
  replaced (tokens_of lookup) (literal_of O lookup) t = replaced (tokens_of lookup') (literal_of O lookup') t'.
Proof.
  induction t as [x|c s|l|d ts IH] using tt_ind2; intros t' H; inversion H; subst; cbn [replaced].
  - unfold tokens_of. unfold lookup, lookup'. rewrite <- rename_lookup_here by exact fresh.
    destruct (assoc_str x bs) eqn:E; [reflexivity|]. apply assoc_str_None in E. contradiction.
  - unfold tokens_of, lookup, lookup'. rewrite <- rename_lookup_other by assumption. reflexivity.
  - reflexivity.
  - unfold literal_of. rewrite H1. reflexivity.
  - unfold literal_of. rewrite H1, H2. rewrite (renamed_format v v') by assumption. reflexivity.
  - f_equal. f_equal. clear H. revert ts' H3. induction IH as [|x ts Hx _ IHa]; intros ts' Ha; inversion Ha; subst; [reflexivity|].
    cbn [flat_map]. rewrite (Hx _ H1), (IHa _ H3). reflexivity.
Qed.

Lemma renamed_substituted ts ts' : renamed_code O a b ts ts' -> substituted O lookup ts = substituted O lookup' ts'.
Proof.
  intros H. unfold substituted, replaced_stream. induction H as [|t t' ts ts' Ht _ IH]; [reflexivity|]. cbn [flat_map].
  rewrite (renamed_replaced t t' Ht), IH. reflexivity.
Qed.
End Code.

Lemma renamed_round O seed n reparse pre a b e post post' block block' code code' :
  renamed_items a b post post' ->
  (forall x, In x (map fst pre) \/ In x (map fst post) -> x <> a /\ x <> b) -> a <> b ->
  renamed_code O a b (block_tokens (map drop_where_stmt block)) (block_tokens (map drop_where_stmt block')) ->
  round_outcome O reparse (new_initialized O seed n) block (pre ++ (a, e) :: post) = Ok code ->
  round_outcome O reparse (new_initialized O seed n) block' (pre ++ (b, e) :: post') = Ok code' ->
  code = code'.
Proof.
  intros Hi Hn Hab Hc H H'.
  change (pre ++ (a, e) :: post) with (pre ++ [(a, e)] ++ post) in H. change (pre ++ (b, e) :: post') with (pre ++ [(b, e)] ++ post') in H'.
  rewrite !app_assoc in H, H'. unfold round_outcome in H, H'. pose proof (bindings_rename O seed n a b pre e post post' Hi Hn) as Hr. unfold alias, spec_item in *. rewrite Hr in H'.
  apply bind_Ok in H as (bs & Hb & H). unfold alias in *. rewrite Hb in H'. cbn [bind] in H'.
  destruct (first_part_failure O (fun x => assoc_str x bs) reparse (block_parts block)) as [[]|]; try discriminate H.
  destruct (first_part_failure O (fun x => assoc_str x (rename_bindings a b bs)) reparse (block_parts block')) as [[]|]; try discriminate H'.
  cbn [ends_with] in H, H'. injection H as <-. injection H' as <-.
  unfold bindings in Hb. apply bind_Ok in Hb as (tis & H1 & H2).
  assert (Hnames : map fst bs = map fst ((pre ++ [(a, e)]) ++ post)).
  { rewrite (run_items_names _ _ _ _ _ H2). eapply elab_items_names. exact H1. }
  apply renamed_substituted; [| |exact Hc]; rewrite Hnames, !map_app; cbn [map fst].
  - apply in_or_app. left. apply in_or_app. right. left. reflexivity.
  - intros Hin. apply in_app_or in Hin as [Hin|Hin]; [apply in_app_or in Hin as [Hin|[Hin|[]]]|].
    + destruct (Hn b (or_introl Hin)); contradiction.
    + contradiction.
    + destruct (Hn b (or_intror Hin)); contradiction.
Qed.
