(** Proofs for SpecBuilding. *)
From Coq Require Import String.
From Verif Require Import Base BaseFacts Token Types TypesProofs Values Ast Env Item Deprecation Interpreter Parse Macro SpecPrograms SpecParse SpecElab SpecFormat SpecSubst SpecItem SpecDeprecation SpecMacro SpecRepro
  SpecCalls SpecNaming SpecOrder SpecUnroll SpecForms SpecNested SpecBuilding ElabProofs ElabFacts BuiltinFacts CallFacts ResolveFacts ThreadProofs
  InterpreterProofs ReproProofs MacroProofs MeaningProofs NamingProofs UnrollProofs OrderProofs UnrollAllProofs LoopAlgebra NestedProofs.
Open Scope list_scope.

(** ** Definitions *)
Section Put.
Context (O : oracles) (seed first : N).
Let env := new_initialized O seed first.
Context (t1 : list (str * texpr)) (b1 : venv).
Hypothesis Hok : Forall2 (fun ti b => fst ti = fst b /\ type_of (snd b) = target_of (snd ti)) t1 b1.
Hypothesis Hnd : NoDup (map fst b1).
Let f := fun x => assoc_str x b1.

Definition put_rel (v v' : value) : Prop := v' = put_value f v.
Definition good_name (n : str) : Prop := ~ In n (map fst b1) /\ forall b, In b b1 -> snd b <> VIdent n.
Definition put_types (G G' : tenv) : Prop := G = G' ++ tenv_of t1 /\ Forall good_name (map fst G').
Definition put_ctx (c c' : venv) : Prop := c = c' ++ rev b1 /\ Forall good_name (map fst c').

Lemma good_not l x : Forall good_name l -> In x (map fst b1) -> ~ In x l.
Proof. intros H Hin Hx. rewrite Forall_forall in H. exact (proj1 (H x Hx) Hin). Qed.
Lemma good_value l x w : Forall good_name l -> f x = Some w -> forall y, w = VIdent y -> ~ In y l.
Proof. intros H Hf y -> Hy. rewrite Forall_forall in H. apply (proj2 (H y Hy) (x, VIdent y)); [|reflexivity]. apply assoc_str_some_in. exact Hf. Qed.
Lemma f_in x w : f x = Some w -> In x (map fst b1).
Proof. intros H. apply assoc_str_some_in in H. exact (in_map fst _ _ H). Qed.
Lemma assoc_rev_nodup {A} (l : list (str * A)) x : NoDup (map fst l) -> assoc_str x (rev l) = assoc_str x l.
Proof.
  intros H. destruct (assoc_str x l) as [w|] eqn:E.
  - induction l as [|[y v] l IH]; [discriminate|]. inversion H as [|? ? Hy Hl]; subst. cbn [assoc_str] in E. cbn [rev]. destruct (str_eqb x y) eqn:Exy.
    + injection E as ->. apply str_eqb_eq in Exy as ->. rewrite assoc_str_skip; [cbn; rewrite str_eqb_refl; reflexivity|]. rewrite map_rev, <- in_rev. exact Hy.
    + assert (Hk : forall (l' : list (str * A)) z, assoc_str x l' = Some w -> assoc_str x (l' ++ z) = Some w).
      { induction l' as [|[k u] l' IHl]; intros z; [discriminate|]. cbn [app assoc_str]. destruct (str_eqb x k); [auto|apply IHl]. }
      apply Hk. apply IH; assumption.
  - apply assoc_str_None. apply assoc_str_None in E. rewrite map_rev, <- in_rev. exact E.
Qed.
Lemma t1_types x : assoc_str x (tenv_of t1) = option_map type_of (f x).
Proof.
  unfold f. rewrite <- (assoc_rev_nodup b1 x Hnd). pose proof (ctx_ok_of _ _ Hok) as H. unfold ctx_ok in H. induction H as [|[n t] [m v] l l' (E1 & E2) _ IH]; [reflexivity|].
  cbn in E1, E2. subst m t. cbn [assoc_str]. destruct (str_eqb x n); [reflexivity|exact IH].
Qed.
Lemma put_type G G' v v' : put_types G G' -> put_rel v v' -> static_type G v = static_type G' v'.
Proof.
  intros (-> & Hg) ->. destruct v as [x| | | | | | |]; try reflexivity. cbn [put_value static_type]. destruct (f x) as [w|] eqn:E.
  - rewrite assoc_str_skip by exact (good_not _ _ Hg (f_in _ _ E)). rewrite t1_types, E. cbn [option_map]. destruct w as [y| | | | | | |]; try reflexivity.
    cbn [type_of static_type]. assert (N : assoc_str y G' = None) by (apply assoc_str_None, (good_value _ _ _ Hg E y eq_refl)). rewrite N. reflexivity.
  - cbn [static_type]. assert (Ha : assoc_str x (G' ++ tenv_of t1) = assoc_str x G').
    { clear Hg. induction G' as [|[n t] G' IH]; cbn [app assoc_str]; [rewrite t1_types, E; reflexivity|]. destruct (str_eqb x n); [reflexivity|exact IH]. }
    rewrite Ha. reflexivity.
Qed.
Lemma put_look c c' v v' : put_ctx c c' -> put_rel v v' -> look c v = look c' v'.
Proof.
  intros (-> & Hg) ->. destruct v as [x| | | | | | |]; try reflexivity. cbn [put_value look]. destruct (f x) as [w|] eqn:E.
  - rewrite assoc_str_skip by exact (good_not _ _ Hg (f_in _ _ E)). rewrite (assoc_rev_nodup b1 x Hnd). fold (f x). rewrite E. destruct w as [y| | | | | | |]; try reflexivity.
    cbn [look]. assert (N : assoc_str y c' = None) by (apply assoc_str_None, (good_value _ _ _ Hg E y eq_refl)). rewrite N. reflexivity.
  - cbn [look]. assert (Ha : assoc_str x (c' ++ rev b1) = assoc_str x c').
    { clear Hg. induction c' as [|[n t] c' IH]; cbn [app assoc_str]; [rewrite (assoc_rev_nodup b1 x Hnd); exact E|]. destruct (str_eqb x n); [reflexivity|exact IH]. }
    rewrite Ha. reflexivity.
Qed.
Lemma put_free G G' n : put_types G G' -> good_name n -> (assoc_str n G = None <-> assoc_str n G' = None).
Proof.
  intros (-> & _) (Hn & _). assert (Ha : assoc_str n (G' ++ tenv_of t1) = assoc_str n G').
  { induction G' as [|[m t] G' IH]; cbn [app assoc_str]; [|destruct (str_eqb n m); [reflexivity|exact IH]]. rewrite t1_types. unfold f. apply assoc_str_None in Hn. rewrite Hn. reflexivity. }
  rewrite Ha. reflexivity.
Qed.
Lemma put_types_cons G G' n t : put_types G G' -> good_name n -> assoc_str n G = None -> put_types ((n, t) :: G) ((n, t) :: G').
Proof. intros (-> & H) Hn _. split; [reflexivity|]. constructor; assumption. Qed.
Lemma put_ctx_cons c c' n v : put_ctx c c' -> good_name n -> assoc_str n c = None -> put_ctx ((n, v) :: c) ((n, v) :: c').
Proof. intros (-> & H) Hn _. split; [reflexivity|]. constructor; assumption. Qed.

Lemma put_leafrel e : raw_kept O f e -> leafrel put_rel e (put_in O f e).
Proof.
  induction e as [id v|id name args raw IH] using expr_ind'; intros H; cbn [put_in]; [constructor; reflexivity|]. cbn [raw_kept] in H. destruct H as (Hr & Ha). constructor.
  - clear Hr. induction IH as [|a args Ha' _ IHa]; cbn [map]; constructor; cbn [map fold_right] in Ha; [apply Ha', Ha|apply IHa, Ha].
  - intros Ht. destruct raw as [[r ts]|]; [|reflexivity]. cbn. f_equal. symmetry. exact (Hr Ht r ts eq_refl).
Qed.

Lemma put_items items : Forall (raw_kept O f) (map snd items) -> Forall good_name (map fst items) ->
  forall t2 b2, elab_items env (tenv_of t1) items = Ok t2 -> run_items O seed (rev b1) t2 = Ok b2 -> bindings O env (map_items (put_in O f) items) = Ok b2.
Proof.
  intros Hr Hg t2 b2 H2 H3.
  assert (Hl : Forall2 (fun it it' : str * expr => fst it = fst it' /\ leafrel put_rel (snd it) (snd it')) items (map_items (put_in O f) items)).
  { unfold map_items. clear -Hr. induction items as [|it items IH]; cbn [map] in *; constructor; inversion Hr; subst; [|apply IH; assumption]. split; [reflexivity|]. apply put_leafrel; assumption. }
  pose proof (elab_items_leafrel O seed first put_rel put_types good_name put_type put_free put_types_cons (fun ts => eq_refl) items _ (tenv_of t1) [] (conj eq_refl (Forall_nil _)) Hg Hl) as E.
  unfold env in *. rewrite H2 in E. unfold bindings. destruct (elab_items (new_initialized O seed first) [] (map_items (put_in O f) items)) as [t2'| |]; try contradiction. cbn [bind].
  change (e_seed (new_initialized O seed first)) with seed.
  rewrite <- (run_items_leafrel O seed put_rel put_ctx good_name put_look put_ctx_cons t2 t2' (rev b1) []); [exact H3| | | | |exact E].
  - split; [reflexivity|constructor].
  - rewrite (elab_items_names _ _ _ _ H2). exact Hg.
  - rewrite (elab_items_names _ _ _ _ H2). exact (proj1 (elab_items_NoDup _ _ _ _ H2)).
  - intros n Hn. rewrite (elab_items_names _ _ _ _ H2) in Hn. rewrite Forall_forall in Hg. destruct (Hg n Hn) as (Hn' & _). apply assoc_str_None. rewrite map_rev, <- in_rev. exact Hn'.
Qed.
End Put.

Lemma nodup_front {A} (l l' : list A) : NoDup (l ++ l') -> NoDup l.
Proof. induction l as [|n l IH]; intros H; [constructor|]. apply NoDup_cons_iff in H as (H1 & H2). apply NoDup_cons; [intros Hin; apply H1, in_app_iff; left; exact Hin|exact (IH H2)]. Qed.
Lemma bindings_put O seed first i1 i2 b1 bs : let env := new_initialized O seed first in
  bindings O env i1 = Ok b1 -> bindings O env (i1 ++ i2) = Ok bs ->
  Forall (raw_kept O (fun x => assoc_str x b1)) (map snd i2) -> (forall b n, In b b1 -> In n (map fst i2) -> snd b <> VIdent n) ->
  exists b2, bindings O env (map_items (put_in O (fun x => assoc_str x b1)) i2) = Ok b2 /\ bs = b1 ++ b2.
Proof.
  intros env H1 H Hr Hv. assert (Hnd : NoDup (map fst (i1 ++ i2))). { unfold bindings in H. apply bind_Ok in H as (t & H & _). exact (proj1 (elab_items_NoDup _ _ _ _ H)). }
  unfold env in *. rewrite bindings_split in H. unfold bindings in H1. destruct (elab_items (new_initialized O seed first) [] i1) as [t1| |] eqn:E1; try discriminate. cbn [bind] in H, H1.
  change (e_seed (new_initialized O seed first)) with seed in H1. destruct (elab_items (new_initialized O seed first) (tenv_of t1) i2) as [t2| |] eqn:E2; try discriminate. cbn [bind] in H.
  rewrite H1 in H. cbn [bind] in H. apply bind_Ok in H as (b2 & H3 & H). injection H as <-. exists b2. split; [|reflexivity].
  pose proof (items_sound O seed first _ [] [] t1 (Forall2_nil _) E1) as Hs. rewrite H1 in Hs.
  assert (Hn1 : map fst b1 = map fst i1) by (rewrite (run_items_names _ _ _ _ _ H1); exact (elab_items_names _ _ _ _ E1)).
  rewrite map_app in Hnd. refine (put_items O seed first t1 b1 Hs _ i2 Hr _ t2 b2 E2 H3).
  - rewrite Hn1. exact (nodup_front _ _ Hnd).
  - apply Forall_forall. intros n Hn. split; [|intros b Hb; exact (Hv b n Hb Hn)]. rewrite Hn1. intros Hin. eapply nodup_apart; [exact Hnd|exact Hin|exact Hn].
Qed.

(** ** Rounds *)
Lemma map_items_app g a b : map_items g (a ++ b) = map_items g a ++ map_items g b.
Proof. apply map_app. Qed.
Lemma map_items_names g a : map fst (map_items g a) = map fst a.
Proof. unfold map_items. rewrite map_map. reflexivity. Qed.
Section Build.
Context (O : oracles) (seed first : N) (ts : list tt) (names : list str).
Let env := new_initialized O seed first.
Context (Hrb : reads_back O) (Hts : plain_strings O ts).
Let put bs := map_items (put_in O (fun z => assoc_str z bs)).
Lemma inert_not v n : inert O names v -> In n names -> v <> VIdent n.
Proof. intros (H & _) Hn ->. exact (H n (or_introl eq_refl) Hn). Qed.
Lemma built_round x y d1 d2 b1 c :
  (forall a b, In a d1 -> In b y -> ~ In (fst a) (mentions (snd b))) ->
  (forall a b, In a d1 -> In b y -> ~ In (fst b) (mentions (snd a))) ->
  (forall b, In b (y ++ d2) -> In (fst b) names /\ raw_kept O (fun z => assoc_str z b1) (snd b)) ->
  bindings O env (x ++ d1) = Ok b1 -> (forall b, In b b1 -> inert O names (snd b)) ->
  round_of O env ts ((x ++ y) ++ d1 ++ d2) = Ok c ->
  round_of O env (substituted O (fun z => assoc_str z b1) ts) (put b1 (y ++ d2)) = Ok c.
Proof.
  intros Ha Hd Hn Hb Hi H. unfold round_of in *. apply bind_Ok in H as (bs & Hbs & H). injection H as <-.
  assert (Hr : rearranged ((x ++ y) ++ d1 ++ d2) ((x ++ d1) ++ (y ++ d2))).
  { rewrite <- !app_assoc. apply rearranged_app, rearranged_blocks. intros a b Hay Hbd. split.
    - apply Hd; assumption.
    - apply Ha; assumption. }
  destruct (rearranged_bindings _ _ _ _ Hr _ Hbs) as (bs' & Hbs' & _ & Hl). destruct (bindings_put O seed first _ _ b1 bs' Hb Hbs') as (b2 & H2 & ->).
  { apply Forall_forall. intros e He. apply in_map_iff in He as (b & <- & He). apply Hn, He. }
  { intros b n Hbb Hnn. apply in_map_iff in Hnn as (b' & <- & Hnn). apply inert_not; [apply Hi, Hbb|apply Hn, Hnn]. }
  fold env in H2. unfold put. rewrite H2. cbn [bind]. f_equal. rewrite (substituted_twice O (fun z => assoc_str z b1) (fun z => assoc_str z b2) names Hrb); [| | |exact Hts].
  - apply substituted_ext. intros w. rewrite <- assoc_app. symmetry. apply Hl.
  - intros z v Hz. apply assoc_str_some_in in Hz. exact (Hi _ Hz).
  - intros z Hz. apply assoc_str_None. intros Hin. apply Hz. rewrite (bindings_names O env _ _ H2), map_items_names in Hin. apply in_map_iff in Hin as (b & <- & Hin). apply Hn, Hin.
Qed.

Lemma built_rounds rs1 rs2 d1 d2 :
  (forall y, In y rs2 -> (forall a b, In a d1 -> In b y -> ~ In (fst a) (mentions (snd b))) /\ (forall a b, In a d1 -> In b y -> ~ In (fst b) (mentions (snd a))) /\
    (forall b, In b (y ++ d2) -> In (fst b) names)) ->
  forall bss codes, mapM (bindings O env) (map (fun x => x ++ d1) rs1) = Ok bss -> (forall bs b, In bs bss -> In b bs -> inert O names (snd b)) ->
  (forall bs y b, In bs bss -> In y rs2 -> In b (y ++ d2) -> raw_kept O (fun z => assoc_str z bs) (snd b)) ->
  mapM (round_of O env ts) (flat_map (fun x => map (fun y => (x ++ y) ++ d1 ++ d2) rs2) rs1) = Ok codes ->
  exists css, Forall2 (fun bs cs => mapM (round_of O env (substituted O (fun z => assoc_str z bs) ts)) (map (fun y => put bs (y ++ d2)) rs2) = Ok cs) bss css /\ codes = concat css.
Proof.
  intros Hc. induction rs1 as [|x rs1 IH]; intros bss codes Hb Hi Hk H; cbn [map flat_map mapM] in *.
  - injection Hb as <-. injection H as <-. exists []. split; [constructor|reflexivity].
  - apply bind_Ok in Hb as (b1 & Hb1 & Hb). apply bind_Ok in Hb as (br & Hbr & Hb). injection Hb as <-. apply mapM_app_ok in H as (cs & cr & Hcs & Hcr & ->).
    destruct (IH br cr Hbr (fun bs b Hbs => Hi bs b (or_intror Hbs)) (fun bs y b Hbs => Hk bs y b (or_intror Hbs)) Hcr) as (css & HF & ->). exists (cs :: css). split; [|reflexivity]. constructor; [|exact HF].
    clear IH HF Hcr Hbr. revert cs Hcs. assert (Hk' := fun y b => Hk b1 y b (or_introl eq_refl)). clear Hk. induction rs2 as [|y rs2 IH]; intros cs Hcs; cbn [map mapM] in *; [exact Hcs|].
    apply bind_Ok in Hcs as (c & Hcc & Hcs). apply bind_Ok in Hcs as (r & Hr & Hcs). injection Hcs as <-. destruct (Hc y (or_introl eq_refl)) as (C1 & C2 & C3).
    rewrite (built_round x y d1 d2 b1 c C1 C2 (fun b Hb => conj (C3 b Hb) (Hk' y b (or_introl eq_refl) Hb)) Hb1 (fun b => Hi b1 b (or_introl eq_refl)) Hcc). cbn [bind].
    rewrite (IH (fun y' Hy => Hc y' (or_intror Hy)) (fun y' b Hy => Hk' y' b (or_intror Hy)) r Hr). reflexivity.
Qed.
End Build.

(** ** Uses *)
Lemma map_own {B} g (a : raw_ast B) : own_items (map_ast g a) = map_items g (own_items a).
Proof. unfold own_items. destruct a as [l [s|] b]; reflexivity. Qed.
Lemma map_aliases {B} g (a : raw_ast B) : ast_aliases (map_ast g a) = ast_aliases a.
Proof.
  rewrite !own_aliases, map_own, map_items_names. f_equal. unfold loops_of. destruct a as [[l|] s b]; [|reflexivity]. cbn. rewrite flat_map_concat_map, map_map, <- flat_map_concat_map. reflexivity.
Qed.
Lemma put_known hf O f e : calls_known hf e -> calls_known hf (put_in O f e).
Proof.
  induction e as [id v|id name args raw IH] using expr_ind'; intros H; inversion H as [|? ? ? ? Hn Ha]; subst; cbn [put_in]; constructor; [exact Hn|].
  clear -IH Ha. induction IH as [|a args Ha' _ IHa]; cbn [map]; constructor; inversion Ha; subst; auto.
Qed.

Section BuiltUses.
Context (O : oracles) (P : parsers) (Y : syntax).
Lemma rounds_built {B} (a b : raw_ast B) g : ast_loops a = ast_loops (map_ast g b) -> own_items a = own_items (map_ast g b) -> rounds a = map (option_map (map_items g)) (rounds b).
Proof. intros H1 H2. rewrite (rounds_header a (map_ast g b) H1 H2). apply rounds_map. Qed.
Lemma map_option_some {A B} (g : A -> B) l rs : map (option_map g) l = map Some rs -> exists l', l = map Some l' /\ rs = map g l'.
Proof.
  revert rs. induction l as [|x l IH]; intros [|r rs] H; try discriminate; [exists []; split; reflexivity|]. cbn [map] in H. injection H as Hx H. destruct x as [a|]; [|discriminate]. injection Hx as <-.
  destruct (IH rs H) as (l' & -> & ->). exists (a :: l'). split; reflexivity.
Qed.

Theorem uses_built uses i u outer c1 uses' k w flat c3 header :
  faithful O (reparse Y) -> covers Y -> reads_back O ->
  nth_error uses i = Some u -> p_ast (inv_parsed (invocation_for O P u)) = Ok (Some outer) -> raised (invocation_for O P u) = [] -> nth_error (expand_uses O P Y uses) i = Some (Code c1) ->
  nth_error uses' k = Some w -> p_ast (inv_parsed (invocation_for O P w)) = Ok (Some flat) -> raised (invocation_for O P w) = [] -> nth_error (expand_uses O P Y uses') k = Some (Code c3) ->
  u_seed u = u_seed w \/ hash_free flat ->
  (forall x, In x item_keywords -> ~ In x (ast_aliases flat)) ->
  proper (erase_ast outer) -> proper header -> flattened (erase_ast outer) header (erase_ast flat) ->
  exists bss, round_bindings O (new_initialized O (u_seed w) 0) (erase_ast outer) = Ok bss /\
    c1 = flat_map (fun bs => substituted O (fun x => assoc_str x bs) (code outer)) bss /\ (forall bs, In bs bss -> forall x, In x (map fst bs) -> In x (ast_aliases outer)) /\
    (built_on (erase_ast outer) header -> plain_strings O (code flat) ->
     (forall bs b, In bs bss -> In b bs -> inert O (ast_aliases header) (snd b)) ->
     (forall bs e, In bs bss -> In e (ast_exprs header) -> raw_kept O (fun x => assoc_str x bs) e) ->
     forall us c, Forall2 (remaining_on O P flat header (u_seed w)) bss us -> outputs_in_sequence (expand_uses O P Y us) = Code c -> c = c3).
Proof.
  intros Hfa Hco Hrb Hu Ha1 Hr1 Hc1 Hw Ha3 Hr3 Hc3 Hs Hk P1 P2 Hfl.
  destruct (flattened_parts _ _ _ P1 P2 Hfl) as (X1 & A1 & X2 & A2). rewrite (erased_aliases outer), (erased_aliases flat) in A1. rewrite (erased_aliases flat) in A2.
  assert (Hs1 : u_seed u = u_seed w \/ hash_free outer).
  { destruct Hs as [Hs|Hs]; [left; exact Hs|right]. apply erased_hash_free. apply erased_hash_free in Hs. unfold hash_free in *. rewrite Forall_forall in *. auto. }
  pose proof (quiet_code O P Y _ _ _ _ _ Hfa Hco Hu Ha1 Hr1 (fun x Hx Hin => Hk x Hx (A1 x Hin)) Hc1) as M1. rewrite (erased_meaning O _ (u_seed w) _ _ Hs1) in M1.
  pose proof (quiet_code O P Y _ _ _ _ _ Hfa Hco Hw Ha3 Hr3 Hk Hc3) as M3. rewrite (erased_meaning O _ (u_seed w) _ _ (or_introl eq_refl)) in M3.
  set (env := new_initialized O (u_seed w) 0) in *.
  destruct (all_some (rounds (erase_ast outer))) as [rs1|] eqn:E1; [|discriminate]. destruct (all_some (rounds (erase_ast flat))) as [rs3|] eqn:E3; [|discriminate].
  apply bind_Ok in M1 as (codes1 & M1 & H). injection H as <-. apply bind_Ok in M3 as (codes3 & M3 & H). injection H as <-.
  destruct (mapM_round_of O _ _ _ _ M1) as (bss & Hb & -> & Hn). destruct (flat_rounds _ _ _ _ _ P1 P2 Hfl E1 E3) as (f1 & F1 & -> & F2).
  destruct (uses_in_turn O P Y _ _ _ _ _ _ _ _ _ _ _ Hfa Hco Hrb Hu Ha1 Hr1 Hc1 Hw Ha3 Hr3 Hc3 Hs Hk P1 P2 Hfl) as (bss0 & HT).
  assert (bss0 = bss). { destruct HT as (HT & _). unfold round_bindings in HT. rewrite E1 in HT. pose proof (eq_trans (eq_sym HT) Hb) as E. injection E as E. exact E. } subst bss0.
  exists bss. split; [unfold round_bindings; rewrite E1; exact Hb|]. split; [rewrite flat_map_concat_map; reflexivity|].
  split; [exact (proj1 (proj2 (proj2 HT)))|].
  intros (S1 & S2) Hpl Hin Hraw us c HF Hc.
  set (put := fun bs : venv => map_items (put_in O (fun z => assoc_str z bs))).
  assert (Hi : Forall2 (fun bs o => forall y, o = Code y -> exists rs cs, rounds header = map Some rs /\ mapM (round_of O env (substituted O (fun x => assoc_str x bs) (code flat))) (map (put bs) rs) = Ok cs /\ y = concat cs) bss (expand_uses O P Y us)).
  { assert (Hnth : forall n bs o, nth_error bss n = Some bs -> nth_error (expand_uses O P Y us) n = Some o -> forall y, o = Code y ->
      exists rs cs, rounds header = map Some rs /\ mapM (round_of O env (substituted O (fun x => assoc_str x bs) (code flat))) (map (put bs) rs) = Ok cs /\ y = concat cs).
    { intros n bs o Hbs Ho y ->. destruct (Forall2_nth_l _ _ _ HF n bs Hbs) as (u' & Hu' & Hr' & Hs' & inner & Ha' & L' & O' & C').
      assert (Hal : ast_aliases inner = ast_aliases header). { rewrite <- erased_aliases, <- (map_aliases (put_in O (fun x => assoc_str x bs)) header), !own_aliases, O'. unfold loops_of. rewrite L'. reflexivity. }
      assert (Hex : ast_exprs (erase_ast inner) = map (put_in O (fun x => assoc_str x bs)) (ast_exprs header)). { rewrite <- ast_exprs_map, !own_exprs, O'. unfold loops_of. rewrite L'. reflexivity. }
      assert (Hs2 : u_seed u' = u_seed w \/ hash_free inner).
      { destruct Hs' as [Hs'|Hs']; [left; exact Hs'|right]. apply erased_hash_free. apply erased_hash_free in Hs'. unfold hash_free in *. rewrite Hex, Forall_forall in *. intros e He. apply in_map_iff in He as (e' & <- & He). apply put_known, Hs', X2, He. }
      assert (Hk' : forall x, In x item_keywords -> ~ In x (ast_aliases inner)) by (intros x Hx Hin'; rewrite Hal in Hin'; exact (Hk x Hx (A2 x Hin'))).
      pose proof (quiet_code O P Y _ _ _ _ _ Hfa Hco Hu' Ha' Hr' Hk' Ho) as M2. rewrite (erased_meaning O _ (u_seed w) _ _ Hs2) in M2. rewrite (rounds_built _ _ _ L' O') in M2. fold env in M2.
      match type of M2 with context [all_some ?l] => destruct (all_some l) as [rs|] eqn:E2; [|discriminate] end. apply all_some_in in E2. apply map_option_some in E2 as (rs' & E2 & ->).
      apply bind_Ok in M2 as (cs & M2 & H). injection H as <-. rewrite C' in M2. exists rs', cs. split; [exact E2|split; [exact M2|reflexivity]]. }
    apply Forall2_from_nth; [rewrite expand_length; clear -HF; induction HF; [reflexivity|cbn; congruence]|exact Hnth]. }
  destruct F2 as [(-> & ->)|(f2 & F2 & ->)].
  { injection M3 as <-. cbn [map] in Hn. inversion Hn; subst. inversion HF; subst. injection Hc as <-. reflexivity. }
  assert (Hy : forall y, In y f2 -> forall b, In b y -> exists l, In l (loops_of header) /\ In (fst b) (pattern_aliases (loop_pattern l)) /\ In (snd b) (loop_exprs l)).
  { intros y Hy b Hb'. apply (fits_from _ y); [rewrite F2; apply in_map, Hy|exact Hb']. }
  assert (Hy2 : forall y b, In y f2 -> In b (y ++ own_items header) -> In (fst b) (ast_aliases header) /\ In (snd b) (ast_exprs header)).
  { intros y b Hy' Hb'. rewrite own_aliases, own_exprs, !in_app_iff. apply in_app_iff in Hb' as [Hb'|Hb']; [|split; right; apply in_map, Hb'].
    destruct (Hy y Hy' b Hb') as (l & Hl & Hal & He). split; left; apply in_flat_map; exists l; auto. }
  destruct (built_rounds O (u_seed w) 0 (code flat) (ast_aliases header) Hrb Hpl f1 f2 (own_items (erase_ast outer)) (own_items header)) with (bss := bss) (codes := codes3) as (css & HC & ->).
  { intros y Hy'. split; [|split].
    - intros a b Ha Hb'. destruct (Hy y Hy' b Hb') as (l & Hl & _ & He). exact (S1 l _ a Hl He Ha).
    - intros a b Ha Hb'. destruct (Hy y Hy' b Hb') as (l & Hl & Hal & _). exact (S2 l _ a Hl Hal Ha).
    - intros b Hb'. apply (Hy2 y b Hy' Hb'). }
  { exact Hb. } { exact Hin. }
  { intros bs y b Hbs Hy' Hb'. apply Hraw; [exact Hbs|]. apply (Hy2 y b Hy' Hb'). }
  { exact M3. }
  assert (Hrs : rounds header = map Some (map (fun y => y ++ own_items header) f2)). { rewrite rounds_fronts, proper_fronts by exact P2. rewrite F2, !map_map. reflexivity. }
  rewrite (codes_sequence _ (map (@concat _) css) c Hc).
  - clear. induction css as [|cs css IH]; [reflexivity|]. cbn [map concat]. rewrite IH, concat_app. reflexivity.
  - clear -HC Hi Hrs. revert HC Hi. generalize (expand_uses O P Y us). intros os HC. revert os. induction HC as [|bs cs bss css Hcs _ IH]; intros os Hi; inversion Hi as [|? o ? os' Ho Hos]; subst; cbn [map]; constructor; [|apply IH, Hos].
    intros y Hy. destruct (Ho y Hy) as (rs & cs' & R1 & R2 & ->). rewrite Hrs in R1. apply map_some_inj in R1. subst rs. rewrite map_map in R2. pose proof (eq_trans (eq_sym Hcs) R2) as E. injection E as <-. reflexivity.
Qed.
Theorem nested_built uses i u outer c1 uses' k w flat c3 header j T :
  faithful O (reparse Y) -> covers Y -> reads_back O ->
  nth_error uses i = Some u -> p_ast (inv_parsed (invocation_for O P u)) = Ok (Some outer) -> raised (invocation_for O P u) = [] -> nth_error (expand_uses O P Y uses) i = Some (Code c1) ->
  nth_error uses' k = Some w -> p_ast (inv_parsed (invocation_for O P w)) = Ok (Some flat) -> raised (invocation_for O P w) = [] -> nth_error (expand_uses O P Y uses') k = Some (Code c3) ->
  u_seed u = u_seed w \/ hash_free flat ->
  (forall x, In x item_keywords -> ~ In x (ast_aliases flat)) ->
  code outer = inner_use j T -> ~ In (txt "compose") (ast_aliases outer) ->
  proper (erase_ast outer) -> proper header -> flattened (erase_ast outer) header (erase_ast flat) ->
  exists bss, round_bindings O (new_initialized O (u_seed w) 0) (erase_ast outer) = Ok bss /\
    c1 = flat_map (fun bs => inner_use j (substituted O (fun x => assoc_str x bs) T)) bss /\
    (built_on (erase_ast outer) header -> plain_strings O (code flat) ->
     (forall bs b, In bs bss -> In b bs -> inert O (ast_aliases header) (snd b)) ->
     (forall bs e, In bs bss -> In e (ast_exprs header) -> raw_kept O (fun x => assoc_str x bs) e) ->
     forall us c, Forall2 (nested_on O P T flat header (u_seed w)) bss us -> outputs_in_sequence (expand_uses O P Y us) = Code c -> c = c3).
Proof.
  intros Hfa Hco Hrb Hu Ha1 Hr1 Hc1 Hw Ha3 Hr3 Hc3 Hs Hk Hcode Hcomp P1 P2 Hfl.
  destruct (uses_built _ _ _ _ _ _ _ _ _ _ _ Hfa Hco Hrb Hu Ha1 Hr1 Hc1 Hw Ha3 Hr3 Hc3 Hs Hk P1 P2 Hfl) as (bss & Hb & -> & Hn & H). exists bss. split; [exact Hb|]. split.
  - apply flat_map_in. intros bs Hin. rewrite Hcode. apply staged_code. intros Hz. exact (Hcomp (Hn bs Hin _ Hz)).
  - intros Hst Hpl Hin Hraw us c HF. apply (H Hst Hpl Hin Hraw us c). eapply Forall2_weaken; [|exact HF]. intros bs u0 K. exact (proj2 K).
Qed.
Theorem stacked_built uses i u outer c1 uses' k w flat c3 header j T item :
  faithful O (reparse Y) -> covers Y -> reads_back O ->
  nth_error uses i = Some u -> p_ast (inv_parsed (invocation_for O P u)) = Ok (Some outer) -> raised (invocation_for O P u) = [] -> nth_error (expand_uses O P Y uses) i = Some (Code c1) ->
  nth_error uses' k = Some w -> p_ast (inv_parsed (invocation_for O P w)) = Ok (Some flat) -> raised (invocation_for O P w) = [] -> nth_error (expand_uses O P Y uses') k = Some (Code c3) ->
  u_seed u = u_seed w \/ hash_free flat ->
  (forall x, In x item_keywords -> ~ In x (ast_aliases flat)) ->
  code outer = attribute j T ++ item -> ~ In (txt "compose_item") (ast_aliases outer) ->
  proper (erase_ast outer) -> proper header -> flattened (erase_ast outer) header (erase_ast flat) ->
  exists bss, round_bindings O (new_initialized O (u_seed w) 0) (erase_ast outer) = Ok bss /\
    c1 = flat_map (fun bs => attribute j (substituted O (fun x => assoc_str x bs) T) ++ substituted O (fun x => assoc_str x bs) item) bss /\
    (built_on (erase_ast outer) header -> plain_strings O (code flat) ->
     (forall bs b, In bs bss -> In b bs -> inert O (ast_aliases header) (snd b)) ->
     (forall bs e, In bs bss -> In e (ast_exprs header) -> raw_kept O (fun x => assoc_str x bs) e) ->
     forall us c, Forall2 (stacked_on O P T item flat header (u_seed w)) bss us -> outputs_in_sequence (expand_uses O P Y us) = Code c -> c = c3).
Proof.
  intros Hfa Hco Hrb Hu Ha1 Hr1 Hc1 Hw Ha3 Hr3 Hc3 Hs Hk Hcode Hcomp P1 P2 Hfl.
  destruct (uses_built _ _ _ _ _ _ _ _ _ _ _ Hfa Hco Hrb Hu Ha1 Hr1 Hc1 Hw Ha3 Hr3 Hc3 Hs Hk P1 P2 Hfl) as (bss & Hb & -> & Hn & H). exists bss. split; [exact Hb|]. split.
  - apply flat_map_in. intros bs Hin. rewrite Hcode. apply stacked_code. intros Hz. exact (Hcomp (Hn bs Hin _ Hz)).
  - intros Hst Hpl Hin Hraw us c HF. apply (H Hst Hpl Hin Hraw us c). eapply Forall2_weaken; [|exact HF]. intros bs u0 K. exact (proj2 K).
Qed.
End BuiltUses.
