(** Proofs about the algebra of loops. *)
From Coq Require Import String Permutation.
From Verif Require Import Base BaseFacts Token Types Values Ast Env Item Expand Resolve Eval AliasSubstitution Deprecation Interpreter Parse Macro
  SpecProduct SpecTuple SpecElab SpecPrograms SpecParse SpecDeprecation SpecMacro SpecRepro SpecForms SpecUnroll SpecOrder SpecLoops
  ElabFacts ElabProofs InterpreterProofs ReproProofs MacroProofs MeaningProofs UnrollProofs OrderProofs UnrollAllProofs.
Open Scope list_scope.

(** ** Lists *)
Lemma flat_map_perm {A B} (f : A -> list B) l l' : Permutation l l' -> Permutation (flat_map f l) (flat_map f l').
Proof. apply Permutation_flat_map. Qed.
Lemma flat_map_pointwise {A B} (f g : A -> list B) l : (forall x, In x l -> Permutation (f x) (g x)) -> Permutation (flat_map f l) (flat_map g l).
Proof. induction l as [|x l IH]; intros H; [constructor|]. cbn [flat_map]. apply Permutation_app; [apply H; left; reflexivity|apply IH; intros y Hy; apply H; right; exact Hy]. Qed.
Lemma flat_map_both {A B} (f g : A -> list B) l : Permutation (flat_map (fun x => f x ++ g x) l) (flat_map f l ++ flat_map g l).
Proof.
  induction l as [|x l IH]; [constructor|]. cbn [flat_map]. rewrite <- !app_assoc. apply Permutation_app_head.
  rewrite IH, !app_assoc. apply Permutation_app_tail, Permutation_app_comm.
Qed.
Lemma flat_map_nil {A B} (l : list A) : flat_map (fun _ => @nil B) l = [].
Proof. induction l; [reflexivity|assumption]. Qed.
Lemma flat_map_exchange {A B C} (f : A -> B -> list C) l l' : Permutation (flat_map (fun x => flat_map (f x) l') l) (flat_map (fun y => flat_map (fun x => f x y) l) l').
Proof.
  induction l as [|x l IH]; [cbn; rewrite flat_map_nil; constructor|]. cbn [flat_map]. rewrite IH. symmetry. apply (flat_map_both (f x) (fun y => flat_map (fun x => f x y) l)).
Qed.
Lemma map_flat_map {A B C} (g : B -> C) (f : A -> list B) l : map g (flat_map f l) = flat_map (fun x => map g (f x)) l.
Proof. induction l as [|x l IH]; [reflexivity|]. cbn [flat_map]. rewrite map_app, IH. reflexivity. Qed.
Lemma flat_map_map {A B C} (f : B -> list C) (g : A -> B) l : flat_map f (map g l) = flat_map (fun x => f (g x)) l.
Proof. induction l as [|x l IH]; [reflexivity|]. cbn [map flat_map]. rewrite IH. reflexivity. Qed.
Lemma flat_map_flat_map {A B C} (f : B -> list C) (g : A -> list B) l : flat_map f (flat_map g l) = flat_map (fun x => flat_map f (g x)) l.
Proof. induction l as [|x l IH]; [reflexivity|]. cbn [flat_map]. rewrite flat_map_app, IH. reflexivity. Qed.

Lemma all_some_app {A} (a b : list (option A)) : all_some (a ++ b) = match all_some a, all_some b with Some x, Some y => Some (x ++ y) | _, _ => None end.
Proof. induction a as [|[x|] a IH]; cbn [app all_some]; [destruct (all_some b); reflexivity| |reflexivity]. rewrite IH. destruct (all_some a), (all_some b); reflexivity. Qed.
Lemma all_some_perm {A} (a b : list (option A)) : Permutation a b ->
  match all_some a, all_some b with Some x, Some y => Permutation x y | None, None => True | _, _ => False end.
Proof.
  induction 1 as [|x a b _ IH|x y a|a b c _ IH1 _ IH2]; [constructor| | |].
  - cbn [all_some]. destruct x as [x|]; [|exact I]. destruct (all_some a), (all_some b); cbn; try contradiction; [constructor; exact IH|exact I].
  - cbn [all_some]. destruct x as [x|], y as [y|]; destruct (all_some a); cbn; try exact I. apply perm_swap.
  - destruct (all_some a), (all_some b), (all_some c); try contradiction; [eapply perm_trans; eassumption|exact I].
Qed.

(** ** Combinations *)
Lemma nested_app {A} (pre post : list (list A)) : nested_loops (pre ++ post) = flat_map (fun c => map (app c) (nested_loops post)) (nested_loops pre).
Proof.
  induction pre as [|s pre IH]; [cbn; rewrite app_nil_r, map_id; reflexivity|]. cbn [app nested_loops]. rewrite flat_map_flat_map. apply flat_map_ext. intros x.
  rewrite IH, map_flat_map, flat_map_map. apply flat_map_ext. intros c. rewrite map_map. reflexivity.
Qed.
Lemma nested_split {A} (pre : list (list A)) vs ws post :
  Permutation (nested_loops (pre ++ (vs ++ ws) :: post)) (nested_loops (pre ++ vs :: post) ++ nested_loops (pre ++ ws :: post)).
Proof.
  rewrite !nested_app, <- flat_map_both. apply flat_map_pointwise. intros c _. rewrite <- map_app. cbn [nested_loops]. rewrite flat_map_app. reflexivity.
Qed.
Lemma nested_shuffled {A} (a b : list (list A)) : Forall2 (@Permutation A) a b -> Permutation (nested_loops a) (nested_loops b).
Proof.
  induction 1 as [|s s' a b Hs _ IH]; [reflexivity|]. cbn [nested_loops]. rewrite (flat_map_perm _ _ _ Hs). apply flat_map_pointwise. intros x _. apply Permutation_map, IH.
Qed.
Lemma combinations_cons {A} (s : list A) l : all_combinations (s :: l) = nested_loops (s :: l).
Proof. reflexivity. Qed.
Lemma combinations_middle {A} (pre : list (list A)) s post : all_combinations (pre ++ s :: post) = nested_loops (pre ++ s :: post).
Proof. destruct pre; reflexivity. Qed.

(** The combinations of [pre ++ a :: b :: post] by their parts. *)
Definition quad A : Type := list A * A * A * list A.
Definition quads {A} (pre : list (list A)) (a b : list A) (post : list (list A)) : list (quad A) :=
  flat_map (fun c => flat_map (fun x => flat_map (fun y => map (fun r => (c, x, y, r)) (nested_loops post)) b) a) (nested_loops pre).
Definition quads' {A} (pre : list (list A)) (a b : list A) (post : list (list A)) : list (quad A) :=
  flat_map (fun c => flat_map (fun y => flat_map (fun x => map (fun r => (c, x, y, r)) (nested_loops post)) a) b) (nested_loops pre).
Definition whole {A} (q : quad A) : list A := let '(c, x, y, r) := q in c ++ x :: y :: r.
Definition whole' {A} (q : quad A) : list A := let '(c, x, y, r) := q in c ++ y :: x :: r.
Lemma quads_perm {A} (pre : list (list A)) a b post : Permutation (quads pre a b post) (quads' pre a b post).
Proof. apply flat_map_pointwise. intros c _. apply flat_map_exchange. Qed.
Lemma quads_whole {A} (pre : list (list A)) a b post : map whole (quads pre a b post) = nested_loops (pre ++ a :: b :: post).
Proof.
  rewrite nested_app. unfold quads. rewrite map_flat_map. apply flat_map_ext. intros c. cbn [nested_loops]. rewrite !map_flat_map. apply flat_map_ext. intros x.
  rewrite !map_flat_map. apply flat_map_ext. intros y. rewrite !map_map. reflexivity.
Qed.
Lemma quads_whole' {A} (pre : list (list A)) a b post : map whole' (quads' pre a b post) = nested_loops (pre ++ b :: a :: post).
Proof.
  rewrite nested_app. unfold quads'. rewrite map_flat_map. apply flat_map_ext. intros c. cbn [nested_loops]. rewrite !map_flat_map. apply flat_map_ext. intros x.
  rewrite !map_flat_map. apply flat_map_ext. intros y. rewrite !map_map. reflexivity.
Qed.
Lemma nested_length {A} (l : list (list A)) : forall c, In c (nested_loops l) -> List.length c = List.length l.
Proof.
  induction l as [|s l IH]; intros c H; [destruct H as [<-|[]]; reflexivity|]. cbn [nested_loops] in H. apply in_flat_map in H as (x & _ & H). apply in_map_iff in H as (r & <- & H). cbn. rewrite (IH _ H). reflexivity.
Qed.
Lemma quads_in {A} (pre : list (list A)) a b post c x y r : In (c, x, y, r) (quads pre a b post) -> List.length c = List.length pre /\ In x a /\ In y b.
Proof.
  unfold quads. intros H. apply in_flat_map in H as (c' & Hc & H). apply in_flat_map in H as (x' & Hx & H). apply in_flat_map in H as (y' & Hy & H). apply in_map_iff in H as (r' & E & _).
  injection E as -> -> -> ->. auto using nested_length.
Qed.

(** ** Patterns *)
Lemma all_matched_app ps : forall vs ps' vs', List.length vs = List.length ps ->
  all_matched (ps ++ ps') (vs ++ vs') = match all_matched ps vs, all_matched ps' vs' with Some a, Some b => Some (a ++ b) | _, _ => None end.
Proof.
  induction ps as [|p ps IH]; intros [|v vs] ps' vs' H; try discriminate H; cbn [app all_matched]; [destruct (all_matched ps' vs'); reflexivity|].
  rewrite (IH vs ps' vs') by (cbn in H; congruence). destruct (matched p v), (all_matched ps vs), (all_matched ps' vs'); try reflexivity. rewrite app_assoc. reflexivity.
Qed.
Lemma combine_in {A B} (a : list A) (b : list B) p : In p (combine a b) -> In (fst p) a /\ In (snd p) b.
Proof. destruct p as [x y]. intros H. split; [eapply in_combine_l|eapply in_combine_r]; exact H. Qed.
Lemma nodes_exprs d : forall (level : tuple expr) n, In n (nodes_by_level d level) -> incl (tuple_exprs n) (flat_map tuple_exprs level).
Proof.
  induction d as [|d IH]; intros level n H; [destruct H|]. cbn [nodes_by_level] in H. apply in_app_iff in H as [H|H].
  - intros e He. apply in_flat_map. exists n. auto.
  - intros e He. apply (IH _ _ H) in He. apply in_flat_map in He as (c & Hc & He). apply in_flat_map in Hc as (m & Hm & Hc). apply in_flat_map. exists m. split; [exact Hm|].
    destruct m as [v|l]; [destruct Hc|]. cbn [children] in Hc. cbn [tuple_exprs]. apply in_flat_map. exists c. auto.
Qed.
Lemma order_exprs (t : tuple expr) e : In e (values_in_level_order t) -> In e (flat_map tuple_exprs t).
Proof.
  unfold values_in_level_order. intros H. apply in_flat_map in H as (n & Hn & H). destruct n as [v|l]; [destruct H as [<-|[]]|destruct H]. apply (nodes_exprs _ _ _ Hn). left. reflexivity.
Qed.
Lemma matched_from p v items it : matched p v = Some items -> In it items -> In (fst it) (pattern_aliases p) /\ In (snd it) (source_exprs v).
Proof.
  destruct p as [a|a], v as [e|t]; cbn [matched]; try discriminate.
  - intros E. injection E as <-. intros [<-|[]]. split; left; reflexivity.
  - destruct (list_eq_dec _ _ _); [|discriminate]. intros E. injection E as <-. intros H. apply combine_in in H as (H1 & H2). split; [exact H1|]. apply order_exprs, H2.
Qed.

Lemma rearranged_move M d : Forall (fun m => independent m d) M -> forall r, rearranged (M ++ d :: r) (d :: M ++ r).
Proof.
  induction M as [|m M IH]; intros H r; [constructor|]. inversion H as [|? ? H1 H2]; subst. cbn [app].
  eapply rearranged_trans; [apply (rearranged_app [m]), IH, H2|]. cbn [app]. apply (rearranged_step [] m d (M ++ r)); [exact H1|]. constructor.
Qed.
Lemma rearranged_blocks M1 M2 : (forall a b, In a M1 -> In b M2 -> independent a b) -> forall r, rearranged (M1 ++ M2 ++ r) (M2 ++ M1 ++ r).
Proof.
  induction M2 as [|d M2 IH]; intros H r; [constructor|]. cbn [app]. eapply rearranged_trans.
  - apply rearranged_move. apply Forall_forall. intros a Ha. apply H; [exact Ha|left; reflexivity].
  - apply (rearranged_app [d]). apply IH. intros a b Ha Hb. apply H; [exact Ha|right; exact Hb].
Qed.

(** ** Outputs *)
Section Outputs.
Context (O : oracles) (Y : syntax) (env : environment) (t : thread).
Local Notation run_ast := (execute O Y env t).
Local Notation codes := (codes O Y env t).

Lemma execute_codes ast : run_ast ast = match codes ast with Some l => in_sequence l | None => Err TypeError end.
Proof. rewrite execute_rounds. unfold SpecLoops.codes. destruct (all_some (rounds ast)); reflexivity. Qed.

Lemma codes_split p vs ws ls (ast : raw_ast (list stmt)) :
  codes (with_loops (loop p (vs ++ ws) :: ls) ast) =
  match codes (with_loops (loop p vs :: ls) ast), codes (with_loops (loop p ws :: ls) ast) with
  | Some a, Some b => Some (a ++ b)
  | _, _ => None
  end.
Proof.
  unfold SpecLoops.codes, rounds, own_items. cbn [with_loops ast_loops ast_spec ast_block map loop loop_pattern loop_values]. rewrite !combinations_cons. cbn [nested_loops].
  rewrite flat_map_app, map_app, all_some_app. destruct (all_some _) as [a|], (all_some _) as [b|]; try reflexivity. cbn [option_map]. rewrite map_app. reflexivity.
Qed.
Lemma in_sequence_app a b : in_sequence (a ++ b) = let! x := in_sequence a in let! y := in_sequence b in Ok (x ++ y).
Proof.
  induction a as [|r a IH]; cbn [app in_sequence bind]; [destruct (in_sequence b); reflexivity|]. rewrite IH. destruct r; [|reflexivity|reflexivity]. cbn [bind].
  destruct (in_sequence a); [|reflexivity|reflexivity]. cbn [bind]. destruct (in_sequence b); [|reflexivity|reflexivity]. cbn [bind]. rewrite app_assoc. reflexivity.
Qed.
Lemma output_split p vs ws ls (ast : raw_ast (list stmt)) ts :
  run_ast (with_loops (loop p (vs ++ ws) :: ls) ast) = Ok ts <->
  exists a b, run_ast (with_loops (loop p vs :: ls) ast) = Ok a /\ run_ast (with_loops (loop p ws :: ls) ast) = Ok b /\ ts = a ++ b.
Proof.
  rewrite !execute_codes, codes_split. destruct (codes _) as [x|], (codes (with_loops (loop p ws :: ls) ast)) as [y|]; try (split; [discriminate|intros (a & b & H1 & H2 & _); discriminate]).
  rewrite in_sequence_app. split.
  - intros H. apply bind_Ok in H as (a & Ha & H). apply bind_Ok in H as (b & Hb & H). injection H as <-. eauto.
  - intros (a & b & -> & -> & ->). reflexivity.
Qed.

Lemma codes_of_perm (ast ast' : raw_ast (list stmt)) : ast_block ast = ast_block ast' -> Permutation (rounds ast) (rounds ast') ->
  match codes ast, codes ast' with Some x, Some y => Permutation x y | None, None => True | _, _ => False end.
Proof.
  intros Hb H. apply all_some_perm in H. unfold SpecLoops.codes. rewrite Hb. destruct (all_some (rounds ast)), (all_some (rounds ast')); try exact H. cbn [option_map]. apply Permutation_map, H.
Qed.
Lemma codes_split_any pre p vs ws post (ast : raw_ast (list stmt)) :
  match codes (with_loops (pre ++ loop p vs :: post) ast), codes (with_loops (pre ++ loop p ws :: post) ast) with
  | Some a, Some b => exists l, codes (with_loops (pre ++ loop p (vs ++ ws) :: post) ast) = Some l /\ Permutation l (a ++ b)
  | _, _ => codes (with_loops (pre ++ loop p (vs ++ ws) :: post) ast) = None
  end.
Proof.
  assert (H : Permutation (rounds (with_loops (pre ++ loop p (vs ++ ws) :: post) ast)) (rounds (with_loops (pre ++ loop p vs :: post) ast) ++ rounds (with_loops (pre ++ loop p ws :: post) ast))).
  { unfold rounds, own_items. cbn [with_loops ast_loops ast_spec]. rewrite !(map_app loop_pattern), !(map_app loop_values). cbn [map loop loop_pattern loop_values].
    rewrite <- map_app. apply Permutation_map. rewrite !combinations_middle. apply nested_split. }
  apply all_some_perm in H. rewrite all_some_app in H. unfold SpecLoops.codes. cbn [with_loops ast_block].
  destruct (all_some (rounds (with_loops (pre ++ loop p vs :: post) ast))) as [a|], (all_some (rounds (with_loops (pre ++ loop p ws :: post) ast))) as [b|]; cbn [option_map];
    destruct (all_some (rounds (with_loops (pre ++ loop p (vs ++ ws) :: post) ast))) as [l|]; try contradiction; try reflexivity.
  cbn [option_map]. eexists. split; [reflexivity|]. rewrite <- map_app. apply Permutation_map, H.
Qed.
Lemma codes_shuffled ls ls' (ast : raw_ast (list stmt)) : Forall2 shuffled ls ls' ->
  match codes (with_loops ls ast), codes (with_loops ls' ast) with Some x, Some y => Permutation x y | None, None => True | _, _ => False end.
Proof.
  intros H. apply codes_of_perm; [reflexivity|]. unfold rounds, own_items. cbn [with_loops ast_loops ast_spec].
  assert (Hp : map loop_pattern ls = map loop_pattern ls') by (induction H as [|? ? ? ? (E & _) _ IH]; [reflexivity|]; cbn [map]; congruence). rewrite Hp. apply Permutation_map.
  destruct H as [|l l' ls ls' (_ & Hl) H]; [apply Permutation_refl|]. cbn [map]. rewrite !combinations_cons. apply nested_shuffled. constructor; [exact Hl|].
  clear -H. induction H as [|a b ? ? (_ & E) _ IH]; [constructor|]. cbn [map]. constructor; [exact E|exact IH].
Qed.

(** Exchange. *)
Lemma in_sequence_all l ts : in_sequence l = Ok ts -> Forall (fun r => exists a, r = Ok a) l.
Proof. revert ts. induction l as [|r l IH]; intros ts H; constructor; cbn [in_sequence] in H; apply bind_Ok in H as (a & -> & H); [eauto|]. apply bind_Ok in H as (b & Hb & _). eapply IH, Hb. Qed.
Lemma in_sequence_oks l : Forall (fun r => exists a, r = Ok a) l -> exists cs, l = map Ok cs /\ in_sequence l = Ok (concat cs).
Proof. induction 1 as [|r l (a & ->) _ (cs & -> & IH)]; [exists []; auto|]. exists (a :: cs). split; [reflexivity|]. cbn [in_sequence bind]. rewrite IH. reflexivity. Qed.

Lemma round_rearranged block items items' c : NoDup (item_ids items) -> NoDup (item_ids items') -> rearranged items items' ->
  run_ast (round_ast block items) = Ok c -> run_ast (round_ast block items') = Ok c.
Proof.
  intros Hn Hn' Hr. rewrite !round_execute. unfold execute_block_rewrite. cbn [fst snd]. rewrite !make_substitutions_spec by assumption. cbn [spec_items]. intros H. apply bind_Ok in H as (bs & Hb & H).
  destruct (rearranged_bindings _ _ _ _ Hr _ Hb) as (bs' & Hb' & _ & Hl). rewrite Hb'. cbn [bind]. rewrite <- H. symmetry.
  apply (substitute_same O Y t block bs bs' (fun _ => True)); [auto|auto|]. apply Forall_forall. intros p _. apply all_code.
Qed.

Section Exchange.
Context (pre : list loop_item) (l l' : loop_item) (post : list loop_item) (Hu : unrelated l l') (ast : raw_ast (list stmt)).
Definition items_of (q : quad loop_source_value) : option (list spec_item) :=
  option_map (fun its => its ++ own_items ast) (all_matched (map loop_pattern (pre ++ l :: l' :: post)) (whole q)).
Definition items_of' (q : quad loop_source_value) : option (list spec_item) :=
  option_map (fun its => its ++ own_items ast) (all_matched (map loop_pattern (pre ++ l' :: l :: post)) (whole' q)).
Let qs := quads (map loop_values pre) (loop_values l) (loop_values l') (map loop_values post).
Let qs' := quads' (map loop_values pre) (loop_values l) (loop_values l') (map loop_values post).
Lemma rounds_quads : rounds (with_loops (pre ++ l :: l' :: post) ast) = map items_of qs.
Proof.
  unfold rounds. cbn [with_loops ast_loops]. rewrite !map_app. cbn [map]. rewrite combinations_middle, <- quads_whole, map_map. apply map_ext. intros q. unfold items_of. rewrite map_app. reflexivity.
Qed.
Lemma rounds_quads' : rounds (with_loops (pre ++ l' :: l :: post) ast) = map items_of' qs'.
Proof.
  unfold rounds. cbn [with_loops ast_loops]. rewrite !map_app. cbn [map]. rewrite combinations_middle, <- quads_whole', map_map. apply map_ext. intros q. unfold items_of'. rewrite map_app. reflexivity.
Qed.
Lemma items_exchanged q : In q qs ->
  match items_of q, items_of' q with Some a, Some b => rearranged a b | None, None => True | _, _ => False end.
Proof.
  destruct q as [[[c x] y] r]. intros H. apply quads_in in H as (Hc & Hx & Hy). rewrite map_length in Hc. unfold items_of, items_of', whole, whole'. rewrite !map_app. cbn [map].
  rewrite !all_matched_app by (rewrite map_length; exact Hc). cbn [all_matched].
  destruct (all_matched (map loop_pattern pre) c) as [A|]; [|exact I]. destruct (matched (loop_pattern l) x) as [M1|] eqn:E1, (matched (loop_pattern l') y) as [M2|] eqn:E2; try exact I;
    destruct (all_matched (map loop_pattern post) r) as [B|]; try exact I. cbn [option_map]. rewrite <- !app_assoc. apply rearranged_app. apply rearranged_blocks.
  intros a b Ha Hb. apply (matched_from _ _ _ _ E1) in Ha as (Ha1 & Ha2). apply (matched_from _ _ _ _ E2) in Hb as (Hb1 & Hb2). destruct Hu as (U1 & U2). split.
  - apply U1; [exact Ha1|]. unfold loop_exprs. apply in_flat_map. exists y. auto.
  - apply U2; [exact Hb1|]. unfold loop_exprs. apply in_flat_map. exists x. auto.
Qed.
End Exchange.

Lemma all_some_values {A} (l : list (option A)) r : all_some l = Some r -> l = map Some r.
Proof. revert r. induction l as [|[x|] l IH]; intros r H; try discriminate H; [injection H as <-; reflexivity|]. cbn [all_some] in H. destruct (all_some l) as [s|] eqn:E; [|discriminate H]. injection H as <-. rewrite (IH s eq_refl). reflexivity. Qed.

Lemma oks_inj {A} (a b : list A) : map Ok a = map Ok b -> a = b.
Proof. revert b. induction a as [|x a IH]; intros [|y b] E; try discriminate E; [reflexivity|]. cbn [map] in E. injection E as -> E. rewrite (IH b E). reflexivity. Qed.
Lemma rearranged_ids a b : rearranged a b -> Permutation (item_ids a) (item_ids b).
Proof.
  induction 1 as [|pre d d' post r _ _ IH]; [reflexivity|]. rewrite <- IH. unfold item_ids. rewrite !flat_map_app. cbn [flat_map]. apply Permutation_app_head.
  rewrite !app_assoc. apply Permutation_app_tail, Permutation_app_comm.
Qed.

(** With any result per round. *)
Definition results (F : list spec_item -> res (list tt)) (ast : raw_ast (list stmt)) : option (list (res (list tt))) := option_map (map F) (all_some (rounds ast)).
Lemma results_exchanged (F : list spec_item -> res (list tt)) pre l l' post (ast : raw_ast (list stmt)) cs : unrelated l l' ->
  (forall items items' c, In (Some items) (rounds (with_loops (pre ++ l :: l' :: post) ast)) -> rearranged items items' -> F items = Ok c -> F items' = Ok c) ->
  results F (with_loops (pre ++ l :: l' :: post) ast) = Some (map Ok cs) ->
  exists cs', results F (with_loops (pre ++ l' :: l :: post) ast) = Some (map Ok cs') /\ Permutation cs cs'.
Proof.
  intros Hu HF H. unfold results in *.
  rewrite (rounds_quads pre l l' post ast) in *. rewrite (rounds_quads' pre l l' post ast).
  set (qs := quads _ _ _ _) in *. set (qs' := quads' _ _ _ _).
  assert (Hp : Permutation qs qs') by apply quads_perm.
  destruct (all_some (map (items_of pre l l' post ast) qs)) as [rs|] eqn:Er; [|discriminate H]. cbn [option_map] in *. pose proof (all_some_values _ _ Er) as Ers. injection H as Hcs.
  set (g := fun q => match items_of' pre l l' post ast q with Some its => match F its with Ok c => c | _ => [] end | None => [] end).
  assert (G : forall q, In q qs -> exists its its' c, items_of pre l l' post ast q = Some its /\ items_of' pre l l' post ast q = Some its' /\ F its = Ok c /\ F its' = Ok c).
  { intros q Hq. pose proof (items_exchanged pre l l' post Hu ast q Hq) as Hx. assert (Hi : In (items_of pre l l' post ast q) (map Some rs)) by (rewrite <- Ers; apply in_map, Hq).
    pose proof Hi as Hin'. apply in_map_iff in Hi as (its & Hi & Hin). rewrite <- Hi in Hx. destruct (items_of' pre l l' post ast q) as [its'|]; [|contradiction].
    assert (Hc : In (F its) (map Ok cs)) by (rewrite <- Hcs; apply (in_map F), Hin).
    apply in_map_iff in Hc as (c & Hc & _). exists its, its', c. split; [congruence|]. split; [reflexivity|]. split; [congruence|].
    eapply HF; [|exact Hx|congruence]. rewrite Hi. apply in_map, Hq. }
  assert (Ecs : cs = map g qs).
  { assert (E : map F rs = map Ok (map g qs)).
    { clear -Ers G. revert rs Ers. induction qs as [|q qs IH]; intros [|its rs] Ers; try discriminate Ers; [reflexivity|]. cbn [map] in *. injection Ers as E1 E2.
      rewrite (IH (fun q' Hq' => G q' (or_intror Hq')) rs E2). f_equal. destruct (G q (or_introl eq_refl)) as (i1 & i2 & c & Ha & Hb & Hc & Hd). unfold g. rewrite Hb, Hd. congruence. }
    apply oks_inj. congruence. }
  exists (map g qs'). split; [|rewrite Ecs; apply Permutation_map, Hp].
  assert (G' : forall q, In q qs' -> exists its', items_of' pre l l' post ast q = Some its' /\ F its' = Ok (g q)).
  { intros q Hq. apply (Permutation_in _ (Permutation_sym Hp)) in Hq. destruct (G q Hq) as (i1 & i2 & c & _ & Hb & _ & Hd). exists i2. split; [exact Hb|]. unfold g. rewrite Hb, Hd. reflexivity. }
  clear -G'. induction qs' as [|q qs' IH]; [reflexivity|]. specialize (IH (fun q' Hq' => G' q' (or_intror Hq'))). cbn [map all_some]. destruct (G' q (or_introl eq_refl)) as (its & -> & E).
  destruct (all_some (map (items_of' pre l l' post ast) qs')) as [r|]; [|discriminate IH]. cbn [option_map map] in *. injection IH as IH. rewrite E, IH. reflexivity.
Qed.
Lemma results_any_exchange (F : list spec_item -> res (list tt)) ls ls' : exchanged_loops ls ls' -> forall (ast : raw_ast (list stmt)) (Q : list spec_item -> Prop),
  (forall items items', Q items -> rearranged items items' -> Q items') ->
  (forall items items' c, Q items -> rearranged items items' -> F items = Ok c -> F items' = Ok c) ->
  (forall items, In (Some items) (rounds (with_loops ls ast)) -> Q items) -> forall cs,
  results F (with_loops ls ast) = Some (map Ok cs) ->
  exists cs', results F (with_loops ls' ast) = Some (map Ok cs') /\ Permutation cs cs'.
Proof.
  induction 1 as [ls|pre l l' post ls Hu _ IH]; intros ast Q HQ HF Hall cs H; [eauto|].
  destruct (results_exchanged F pre l l' post ast cs Hu) as (c1 & H1 & P1); [intros items items' c Hin; apply HF, Hall, Hin|exact H|].
  destruct (IH ast Q HQ HF) with (cs := c1) as (cs' & H2 & P2); [|exact H1|exists cs'; split; [exact H2|eapply perm_trans; eassumption]].
  intros items Hin. rewrite (rounds_quads' pre l l' post ast) in Hin. apply in_map_iff in Hin as (q & Eq & Hq).
  apply (Permutation_in _ (Permutation_sym (quads_perm _ _ _ _))) in Hq. pose proof (items_exchanged pre l l' post Hu ast q Hq) as Hx. rewrite Eq in Hx.
  destruct (items_of pre l l' post ast q) as [its|] eqn:Ei; [|contradiction]. eapply HQ; [|exact Hx]. apply Hall. rewrite (rounds_quads pre l l' post ast), <- Ei. apply in_map, Hq.
Qed.

Lemma round_ids (ast : raw_ast (list stmt)) items : NoDup (flat_map ids (ast_exprs ast)) -> all_some (rounds ast) <> None -> In (Some items) (rounds ast) -> NoDup (item_ids items).
Proof.
  intros Hn Hs Hin. destruct (all_some (rounds ast)) as [rs|] eqn:Er; [|contradiction]. pose proof (expand_rounds ast) as He. rewrite Er in He.
  rewrite (all_some_values _ _ Er) in Hin. apply in_map_iff in Hin as (x & E & Hin). injection E as ->.
  destruct He as (rws & He & HF). assert (Hr : exists rw, In rw rws /\ spec_items (fst rw) = items).
  { clear -HF Hin. induction HF as [|a rw rs rws (_ & Hw) _ IH]; [destruct Hin|]. destruct Hin as [->|Hin]; [exists rw; split; [left; reflexivity|exact Hw]|].
    destruct (IH Hin) as (rw' & H1 & H2). exists rw'. split; [right; exact H1|exact H2]. }
  destruct Hr as (rw & Hrw & <-). rewrite item_ids_exprs. eapply part_NoDup; [apply part_flat_map; exact (expand_part _ _ _ He Hrw)|exact Hn].
Qed.
Lemma any_exchange ls ls' (ast : raw_ast (list stmt)) ts : exchanged_loops ls ls' ->
  NoDup (flat_map ids (ast_exprs (with_loops ls ast))) -> run_ast (with_loops ls ast) = Ok ts ->
  exists cs cs', codes (with_loops ls ast) = Some (map Ok cs) /\ codes (with_loops ls' ast) = Some (map Ok cs') /\ Permutation cs cs'.
Proof.
  intros Hx Hn H. rewrite execute_codes in H. destruct (codes (with_loops ls ast)) as [l|] eqn:El; [|discriminate H]. destruct (in_sequence_oks _ (in_sequence_all _ _ H)) as (cs & -> & _).
  assert (Hs : all_some (rounds (with_loops ls ast)) <> None) by (intros E; unfold SpecLoops.codes in El; rewrite E in El; discriminate El).
  destruct (results_any_exchange (fun items => run_ast (round_ast (ast_block ast) items)) ls ls' Hx ast (fun items => NoDup (item_ids items))) with (cs := cs) as (cs' & H' & Hp); [| | |exact El|eauto].
  - intros items items' Hi Hr. eapply Permutation_NoDup; [apply rearranged_ids, Hr|exact Hi].
  - intros items items' c Hi Hr. apply round_rearranged; [exact Hi|eapply Permutation_NoDup; [apply rearranged_ids, Hr|exact Hi]|exact Hr].
  - intros items Hin. eapply round_ids; eassumption.
Qed.
Lemma concat_oks cs : in_sequence (map Ok cs) = Ok (concat cs).
Proof. induction cs as [|c cs IH]; [reflexivity|]. cbn [map in_sequence bind concat]. rewrite IH. reflexivity. Qed.
Lemma exchange_output ls ls' (ast : raw_ast (list stmt)) ts : exchanged_loops ls ls' ->
  NoDup (flat_map ids (ast_exprs (with_loops ls ast))) -> run_ast (with_loops ls ast) = Ok ts ->
  exists cs cs', codes (with_loops ls ast) = Some (map Ok cs) /\ Permutation cs cs' /\ ts = concat cs /\ run_ast (with_loops ls' ast) = Ok (concat cs').
Proof.
  intros Hx Hn H. destruct (any_exchange ls ls' ast ts Hx Hn H) as (cs & cs' & H1 & H2 & Hp). exists cs, cs'. rewrite execute_codes in H. rewrite H1, concat_oks in H. injection H as <-.
  rewrite execute_codes, H2, concat_oks. auto.
Qed.
End Outputs.

(** ** Uses *)
Section LoopUses.
Context (O : oracles) (P : parsers) (Y : syntax).
Lemma use_codes u ast t : p_ast (inv_parsed (invocation_for O P u)) = Ok (Some ast) ->
  SpecLoops.codes O Y (new_initialized O (u_seed u) (u_first_id u)) t ast = results (round_result O Y (u_seed u) t (ast_block ast)) (erase_ast ast).
Proof.
  intros Hp. unfold SpecLoops.codes, results, erase_ast. rewrite rounds_map, all_some_map.
  destruct (all_some (rounds ast)) as [rs|] eqn:Er; [|reflexivity]. cbn [option_map]. rewrite map_map. f_equal. apply map_ext_in. intros items Hin.
  rewrite round_execute. unfold execute_block_rewrite, round_result. cbn [fst snd].
  rewrite make_substitutions_spec by (cbn [spec_items]; eapply rounds_NoDup; eassumption). cbn [spec_items].
  rewrite (erased_bindings O (u_seed u) (u_first_id u) items (map_items erase items)); [reflexivity|]. symmetry. apply erase_twice.
Qed.
Lemma loops_in_use uses i j u u' ast ast' ls ls' A ts : exchanged_loops ls ls' ->
  nth_error uses i = Some u -> nth_error uses j = Some u' -> u_seed u = u_seed u' ->
  p_ast (inv_parsed (invocation_for O P u)) = Ok (Some ast) -> p_ast (inv_parsed (invocation_for O P u')) = Ok (Some ast') ->
  raised (invocation_for O P u) = raised (invocation_for O P u') ->
  erase_ast ast = with_loops ls A -> erase_ast ast' = with_loops ls' A ->
  nth_error (expand_uses O P Y uses) i = Some (Code ts) ->
  exists t cs cs', SpecLoops.codes O Y (new_initialized O (u_seed u) (u_first_id u)) t ast = Some (map Ok cs) /\
    SpecLoops.codes O Y (new_initialized O (u_seed u') (u_first_id u')) t ast' = Some (map Ok cs') /\ Permutation cs cs' /\
    ts = concat cs /\ nth_error (expand_uses O P Y uses) j = Some (Code (concat cs')).
Proof.
  intros Hx Hi Hj Hs Hp Hp' Hr HA HA' H. rewrite (use_output O P Y uses i u Hi) in H. rewrite (use_output O P Y uses j u' Hj).
  assert (Ehd : hd u uses = hd u' uses) by (destruct uses; [destruct i; discriminate|reflexivity]). rewrite Ehd in H. revert H. set (p := prefix_of _).
  unfold InterpreterProofs.outcome. rewrite Hp, Hp'.
  change (inv_seed (invocation_for O P u)) with (u_seed u). change (inv_seed (invocation_for O P u')) with (u_seed u').
  change (inv_first_id (invocation_for O P u)) with (u_first_id u). change (inv_first_id (invocation_for O P u')) with (u_first_id u').
  assert (Ht : thread_for p (invocation_for O P u) = thread_for p (invocation_for O P u')) by (unfold thread_for; rewrite Hr; reflexivity). rewrite <- Ht.
  set (t := thread_for p (invocation_for O P u)). clearbody t. rewrite !execute_codes.
  assert (Hb : ast_block ast = ast_block A) by (change (ast_block ast) with (ast_block (erase_ast ast)); rewrite HA; reflexivity).
  assert (Hb' : ast_block ast' = ast_block A) by (change (ast_block ast') with (ast_block (erase_ast ast')); rewrite HA'; reflexivity).
  intros H. exists t. rewrite (use_codes u ast t Hp), (use_codes u' ast' t Hp') in *. rewrite HA in *. rewrite HA', Hb, Hb', <- Hs in *.
  destruct (results _ (with_loops ls A)) as [l|] eqn:El; [|discriminate H].
  destruct (in_sequence l) as [c|k|m] eqn:Es; try discriminate H. assert (c = ts) by (injection H as ->; reflexivity). subst c.
  destruct (in_sequence_oks _ (in_sequence_all _ _ Es)) as (cs & -> & Es'). rewrite Es' in Es. injection Es as <-.
  destruct (results_any_exchange (round_result O Y (u_seed u) t (ast_block A)) ls ls' Hx A (fun _ => True)) with (cs := cs) as (cs' & H' & Hperm); [auto| |auto|exact El|].
  - intros items items' c _ Hre Hc. pose proof Hc as Hc'. unfold round_result in Hc'. apply bind_Ok in Hc' as (bs & Hbs & _). rewrite <- (rearranged_round O Y (u_seed u) t (ast_block A) items items' bs Hre Hbs). exact Hc.
  - exists cs, cs'. rewrite H', concat_oks. auto.
Qed.
End LoopUses.
