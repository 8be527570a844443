(** Two uses one after the other, in either order. *)
From Verif Require Import Base BaseFacts Token Types Values Ast Env Item Expand Deprecation Interpreter Parse Macro
  SpecPrograms SpecParse SpecParse SpecElab SpecFormat SpecSubst SpecItem SpecDeprecation SpecMacro SpecRepro SpecForms SpecUnroll SpecOrder SpecNested SpecEitherOrder
  ElabFacts InterpreterProofs MacroProofs MeaningProofs UnrollProofs OrderProofs BracketProofs NestedProofs.
Open Scope list_scope.

Lemma round_names (ast : raw_ast (list stmt)) rs items x : all_some (rounds ast) = Some rs -> In items rs -> In x (map fst items) -> In x (ast_aliases ast).
Proof.
  intros E Hi Hx. pose proof (expand_rounds ast) as He. rewrite E in He. destruct He as (rws & He & HF).
  assert (Hr : exists rw, In rw rws /\ spec_items (fst rw) = items).
  { clear -HF Hi. induction HF as [|a rw rs rws (_ & Hw) _ IH]; [destruct Hi|]. destruct Hi as [->|Hi]; [exists rw; split; [left; reflexivity|exact Hw]|].
    destruct (IH Hi) as (rw' & H1 & H2). exists rw'. split; [right; exact H1|exact H2]. }
  destruct Hr as (rw & Hrw & <-). exact (rewrite_aliases _ _ _ _ He Hrw Hx).
Qed.
Lemma header_aliases {B} (a b : raw_ast B) : ast_loops a = ast_loops b -> own_items a = own_items b -> ast_aliases a = ast_aliases b.
Proof. intros L E. rewrite !own_aliases, E. unfold loops_of. rewrite L. reflexivity. Qed.
Lemma header_exprs {B} (a b : raw_ast B) : ast_loops a = ast_loops b -> own_items a = own_items b -> ast_exprs a = ast_exprs b.
Proof. intros L E. rewrite !own_exprs, E. unfold loops_of. rewrite L. reflexivity. Qed.

Lemma substituted_either O f g names names' ts : reads_back O -> plain_strings O ts ->
  (forall x v, f x = Some v -> inert O names v) -> (forall x, ~ In x names -> g x = None) ->
  (forall x v, g x = Some v -> inert O names' v) -> (forall x, ~ In x names' -> f x = None) -> (forall x, In x names -> ~ In x names') ->
  substituted O f (substituted O g ts) = substituted O g (substituted O f ts).
Proof.
  intros Hr Hp Hf Hg Hg' Hf' Hd. rewrite (substituted_twice O f g names Hr Hf Hg ts Hp), (substituted_twice O g f names' Hr Hg' Hf' ts Hp). apply substituted_ext. intros x. unfold then_.
  destruct (f x) as [v|] eqn:E; [|destruct (g x); reflexivity]. destruct (g x) as [w|] eqn:E'; [|reflexivity]. exfalso.
  assert (Hn : g x = None); [|congruence]. apply Hg. intros Hin. specialize (Hf' x (Hd x Hin)). congruence.
Qed.
Lemma substituted_flat_map {A} O f (g : A -> list tt) l : substituted O f (flat_map g l) = flat_map (fun a => substituted O f (g a)) l.
Proof. induction l as [|a l IH]; [reflexivity|]. cbn [flat_map]. rewrite substituted_app, IH. reflexivity. Qed.

Section Uses.
Context (O : oracles) (P : parsers) (Y : syntax) (seed : N).
Notation env := (new_initialized O seed 0).

Lemma yields_code header ts uses i c : faithful O (reparse Y) -> covers Y -> (forall x, In x item_keywords -> ~ In x (ast_aliases header)) ->
  yields O P Y header seed ts uses i c ->
  exists bss, round_bindings O env header = Ok bss /\ c = flat_map (fun bs => substituted O (fun x => assoc_str x bs) ts) bss /\
    (forall bs x, In bs bss -> In x (map fst bs) -> In x (ast_aliases header)).
Proof.
  intros Hfa Hco Hk (u & ast & Hu & Ha & Hr & L & I & C & Hs & Hc). pose proof (header_aliases _ _ L I) as Hal. rewrite erased_aliases in Hal.
  assert (Hs' : u_seed u = seed \/ hash_free ast).
  { destruct Hs as [Hs|Hs]; [left; exact Hs|right]. apply erased_hash_free. unfold hash_free in *. rewrite (header_exprs _ _ L I). exact Hs. }
  rewrite <- Hal in Hk. pose proof (quiet_code O P Y _ _ _ _ _ Hfa Hco Hu Ha Hr Hk Hc) as M. rewrite (erased_meaning O _ seed _ _ Hs'), (rounds_header _ _ L I), C in M.
  destruct (all_some (rounds header)) as [rs|] eqn:E; [|discriminate]. apply bind_Ok in M as (codes & M & H). injection H as <-.
  destruct (mapM_round_of O _ _ _ _ M) as (bss & Hb & -> & Hn). exists bss. split; [unfold round_bindings; rewrite E; exact Hb|]. split; [rewrite flat_map_concat_map; reflexivity|].
  intros bs x Hin Hx. assert (HI : forall items, In items rs -> In x (map fst items) -> In x (ast_aliases header)) by (intros items; exact (round_names _ _ _ _ E)).
  clear -Hn Hin Hx HI. induction Hn as [|items b rs bss Hf _ IH]; [destruct Hin|]. destruct Hin as [->|Hin].
  - apply (HI items (or_introl eq_refl)). exact (eq_ind _ (fun l => In x l) Hx _ Hf).
  - exact (IH Hin (fun items H => HI items (or_intror H))).
Qed.

Theorem either_order A B ts uses1 i1 c1 uses2 i2 c12 uses3 i3 c2 uses4 i4 c21 :
  faithful O (reparse Y) -> covers Y -> reads_back O -> plain_strings O ts ->
  (forall x, In x item_keywords -> ~ In x (ast_aliases A) /\ ~ In x (ast_aliases B)) -> (forall x, In x (ast_aliases A) -> ~ In x (ast_aliases B)) ->
  yields O P Y A seed ts uses1 i1 c1 -> yields O P Y B seed c1 uses2 i2 c12 -> yields O P Y B seed ts uses3 i3 c2 -> yields O P Y A seed c2 uses4 i4 c21 ->
  exists bssA bssB, round_bindings O env A = Ok bssA /\ round_bindings O env B = Ok bssB /\
    (apart O A bssA B bssB ->
     c12 = flat_map (fun b => flat_map (fun a => substituted O (fun x => assoc_str x (a ++ b)) ts) bssA) bssB /\
     c21 = flat_map (fun a => flat_map (fun b => substituted O (fun x => assoc_str x (a ++ b)) ts) bssB) bssA).
Proof.
  intros Hfa Hco Hrb Hpl Hk Hd Y1 Y2 Y3 Y4.
  destruct (yields_code A _ _ _ _ Hfa Hco (fun x Hx => proj1 (Hk x Hx)) Y1) as (bssA & HA & -> & NA).
  destruct (yields_code B _ _ _ _ Hfa Hco (fun x Hx => proj2 (Hk x Hx)) Y3) as (bssB & HB & -> & NB).
  destruct (yields_code B _ _ _ _ Hfa Hco (fun x Hx => proj2 (Hk x Hx)) Y2) as (b & HB' & -> & _). pose proof (eq_trans (eq_sym HB) HB') as E. injection E as <-.
  destruct (yields_code A _ _ _ _ Hfa Hco (fun x Hx => proj1 (Hk x Hx)) Y4) as (b & HA' & -> & _). pose proof (eq_trans (eq_sym HA) HA') as E. injection E as <-.
  exists bssA, bssB. split; [exact HA|]. split; [exact HB|]. intros (IA & IB).
  assert (SA : forall a, In a bssA -> (forall x v, assoc_str x a = Some v -> inert O (ast_aliases B) v) /\ forall x, ~ In x (ast_aliases A) -> assoc_str x a = None).
  { intros a Ha. split; [intros x v Hx; exact (IA a (x, v) Ha (assoc_str_some_in _ _ _ Hx))|]. intros x Hx. apply assoc_str_None. intros Hin. exact (Hx (NA a x Ha Hin)). }
  assert (SB : forall b, In b bssB -> (forall x v, assoc_str x b = Some v -> inert O (ast_aliases A) v) /\ forall x, ~ In x (ast_aliases B) -> assoc_str x b = None).
  { intros b Hb. split; [intros x v Hx; exact (IB b (x, v) Hb (assoc_str_some_in _ _ _ Hx))|]. intros x Hx. apply assoc_str_None. intros Hin. exact (Hx (NB b x Hb Hin)). }
  assert (S : forall a b, In a bssA -> In b bssB -> substituted O (fun x => assoc_str x b) (substituted O (fun x => assoc_str x a) ts) = substituted O (fun x => assoc_str x (a ++ b)) ts).
  { intros a b Ha Hb. refine (eq_trans (substituted_twice O _ _ (ast_aliases B) Hrb (proj1 (SA a Ha)) (proj2 (SB b Hb)) ts Hpl) _). apply substituted_ext. intros x. symmetry. apply assoc_app. }
  split.
  - apply flat_map_in. intros b Hb. rewrite substituted_flat_map. apply flat_map_in. intros a Ha. exact (S a b Ha Hb).
  - apply flat_map_in. intros a Ha. rewrite substituted_flat_map. apply flat_map_in. intros b Hb.
    refine (eq_trans (substituted_either O _ _ (ast_aliases B) (ast_aliases A) ts Hrb Hpl (proj1 (SA a Ha)) (proj2 (SB b Hb)) (proj1 (SB b Hb)) (proj2 (SA a Ha)) (fun x Hx Hy => Hd x Hy Hx)) _).
    exact (S a b Ha Hb).
Qed.
Lemma one_round (header : raw_ast (list stmt)) bss : ast_loops header = None -> round_bindings O env header = Ok bss -> exists bs, bss = [bs].
Proof.
  intros H Hb. unfold round_bindings, rounds in Hb. rewrite H in Hb. cbn [all_some mapM] in Hb. apply bind_Ok in Hb as (bs & _ & Hb). injection Hb as <-. exists bs. reflexivity.
Qed.
Theorem either_order_same A B ts uses1 i1 c1 uses2 i2 c12 uses3 i3 c2 uses4 i4 c21 :
  faithful O (reparse Y) -> covers Y -> reads_back O -> plain_strings O ts ->
  (forall x, In x item_keywords -> ~ In x (ast_aliases A) /\ ~ In x (ast_aliases B)) -> (forall x, In x (ast_aliases A) -> ~ In x (ast_aliases B)) ->
  yields O P Y A seed ts uses1 i1 c1 -> yields O P Y B seed c1 uses2 i2 c12 -> yields O P Y B seed ts uses3 i3 c2 -> yields O P Y A seed c2 uses4 i4 c21 ->
  (forall bssA bssB, round_bindings O env A = Ok bssA -> round_bindings O env B = Ok bssB -> apart O A bssA B bssB) ->
  ast_loops A = None \/ ast_loops B = None -> c12 = c21.
Proof.
  intros H1 H2 H3 H4 H5 H6 Y1 Y2 Y3 Y4 Hap HL. destruct (either_order _ _ _ _ _ _ _ _ _ _ _ _ _ _ _ H1 H2 H3 H4 H5 H6 Y1 Y2 Y3 Y4) as (bssA & bssB & HA & HB & H).
  destruct (H (Hap _ _ HA HB)) as (-> & ->). destruct HL as [HL|HL].
  - destruct (one_round _ _ HL HA) as (a & ->). cbn [flat_map]. rewrite app_nil_r. apply flat_map_in. intros b _. apply app_nil_r.
  - destruct (one_round _ _ HL HB) as (b & ->). cbn [flat_map]. rewrite app_nil_r. symmetry. apply flat_map_in. intros a _. apply app_nil_r.
Qed.
(** ** Both at once *)
Lemma rounds_of_bindings ts rs bss : mapM (bindings O env) rs = Ok bss -> mapM (round_of O env ts) rs = Ok (map (fun bs => substituted O (fun x => assoc_str x bs) ts) bss).
Proof.
  revert bss. induction rs as [|items rs IH]; intros bss H; cbn [mapM] in *; [injection H as <-; reflexivity|].
  apply bind_Ok in H as (b & Hb & H). apply bind_Ok in H as (r & Hr & H). injection H as <-. unfold round_of at 1. rewrite Hb. cbn [bind]. rewrite (IH r Hr). reflexivity.
Qed.
Theorem both_at_once A B F ts uses1 i1 c1 uses2 i2 c uses3 i3 c' :
  faithful O (reparse Y) -> covers Y -> reads_back O -> plain_strings O ts ->
  (forall x, In x item_keywords -> ~ In x (ast_aliases F)) -> (forall x, In x (ast_aliases A) -> ~ In x (ast_aliases B)) ->
  proper A -> proper B -> flattened A B F -> staged A B ->
  yields O P Y B seed ts uses1 i1 c1 -> yields O P Y A seed c1 uses2 i2 c -> yields O P Y F seed ts uses3 i3 c' ->
  (forall bssA bssB, round_bindings O env A = Ok bssA -> round_bindings O env B = Ok bssB -> apart O A bssA B bssB) -> c = c'.
Proof.
  intros Hfa Hco Hrb Hpl Hk Hd PA PB Hfl Hst Y1 Y2 Y3 Hap. destruct (flattened_parts _ _ _ PA PB Hfl) as (_ & KA & _ & KB).
  destruct (yields_code B _ _ _ _ Hfa Hco (fun x Hx Hin => Hk x Hx (KB x Hin)) Y1) as (bssB & HB & -> & NB).
  destruct (yields_code A _ _ _ _ Hfa Hco (fun x Hx Hin => Hk x Hx (KA x Hin)) Y2) as (bssA & HA & -> & NA).
  destruct (yields_code F _ _ _ _ Hfa Hco Hk Y3) as (bssF & HF & -> & _). destruct (Hap _ _ HA HB) as (IA & IB). unfold round_bindings in HA, HB, HF.
  destruct (all_some (rounds A)) as [rsA|] eqn:EA; [|discriminate]. destruct (all_some (rounds F)) as [rsF|] eqn:EF; [|discriminate]. destruct (all_some (rounds B)) as [rsB|] eqn:EB; [|discriminate].
  destruct (flat_rounds _ _ _ _ _ PA PB Hfl EA EF) as (f1 & F1 & -> & [(-> & ->)|(f2 & F2 & ->)]).
  { injection HA as <-. injection HF as <-. reflexivity. }
  assert (ErB : rsB = map (fun y => y ++ own_items B) f2).
  { rewrite rounds_fronts, proper_fronts, F2, map_map in EB by exact PB. change (all_some (map (fun y => Some (y ++ own_items B)) f2) = Some rsB) in EB.
    rewrite <- (map_map (fun y => y ++ own_items B) Some), all_some_of in EB. injection EB as <-. reflexivity. }
  subst rsB. pose proof (rounds_of_bindings ts _ _ HF) as MF.
  destruct (nested_rounds O env ts (ast_aliases B) Hrb Hpl f1 f2 _ _ (staged_rounds _ _ f1 f2 Hst F1 F2) bssA _ HA IA MF) as (css & HC & Ecs).
  rewrite !flat_map_concat_map, Ecs.
  assert (G : forall l cs, (forall a, In a l -> In a bssA) -> Forall2 (fun bs cs => mapM (round_of O env (substituted O (fun z => assoc_str z bs) ts)) (map (fun y => y ++ own_items B) f2) = Ok cs) l cs ->
    concat (map (fun a => substituted O (fun x => assoc_str x a) (concat (map (fun b => substituted O (fun x => assoc_str x b) ts) bssB))) l) = concat (concat cs)).
  { intros l cs Hl HF2. induction HF2 as [|a c l cs Hc _ IH]; [reflexivity|]. cbn [map concat]. rewrite IH by (intros; apply Hl; right; assumption). rewrite concat_app. f_equal.
    rewrite (rounds_of_bindings _ _ _ HB) in Hc. injection Hc as <-. rewrite <- !flat_map_concat_map, substituted_flat_map. apply flat_map_in. intros b Hb. assert (Ha := Hl a (or_introl eq_refl)).
    apply (substituted_either O _ _ (ast_aliases B) (ast_aliases A)); try assumption.
    - intros x v Hx. exact (IA a (x, v) Ha (assoc_str_some_in _ _ _ Hx)).
    - intros x Hx. apply assoc_str_None. intros Hin. exact (Hx (NB b x Hb Hin)).
    - intros x v Hx. exact (IB b (x, v) Hb (assoc_str_some_in _ _ _ Hx)).
    - intros x Hx. apply assoc_str_None. intros Hin. exact (Hx (NA a x Ha Hin)).
    - intros x Hx Hy. exact (Hd x Hy Hx). }
  exact (G bssA css (fun a H => H) HC).
Qed.
End Uses.
