(** Proofs about unrolled loops with spans. *)
From Coq Require Import String Lia Bool.
From Verif Require Import Base BaseFacts Token Types Values Ast Tuple CrossProduct Expand Item SpecProduct SpecTuple SpecMacro CrossProductProofs ExpandProofs MeaningProofs
  Failures SpanTokens SpanWalker SpanValues SpanEval SpanItem SpanParse SpanExpand SpanMacro SpecSpanEval SpanEvalProofs SpecSpanUnroll.
Open Scope list_scope.

Section Unroll.
Context (SO : soracles).

(** ** One pattern and one value *)
Lemma smatch_spec a s e : smatch_tuples a s e =
  if list_eq_dec bool_dec (kinds_in_level_order a) (kinds_in_level_order e) then SOk Datatypes.tt
  else if Nat.eqb (List.length (kinds_in_level_order a)) (List.length (kinds_in_level_order e))
       then SErr (FType (txt "Shape of the value tuple doesn't match the shape of the alias tuple")) s
       else SErr (FType (txt "Mismatched number of elements in the tuple")) s.
Proof.
  unfold smatch_tuples.
  destruct (iter_destructuring_levels a) as (ka & -> & Ha). destruct (iter_destructuring_levels e) as (ke & -> & He).
  cbn [slift sbind]. rewrite <- Ha, <- He, !map_length.
  destruct (Nat.eqb_spec (List.length ka) (List.length ke)) as [Hl|Hl].
  - pose proof (kinds_match_iff ka ke Hl) as Hk.
    destruct (kinds_match ka ke), (list_eq_dec bool_dec (map is_tuple ka) (map is_tuple ke)) as [E|E]; try reflexivity; exfalso.
    + apply E. apply Hk. reflexivity.
    + apply Hk in E. discriminate.
  - destruct (list_eq_dec bool_dec (map is_tuple ka) (map is_tuple ke)) as [E|E]; [|reflexivity].
    exfalso. apply Hl. rewrite <- (map_length is_tuple ka), <- (map_length is_tuple ke), E. reflexivity.
Qed.

Lemma items_fits p v items : fits p v items -> smake_spec_items SO p v = SOk items.
Proof.
  destruct 1 as [a e|a s e H]; [reflexivity|]. cbn [smake_spec_items]. rewrite smatch_spec.
  destruct (list_eq_dec _ _ _) as [_|N]; [|contradiction]. rewrite !iter_recursive_values. reflexivity.
Qed.
Lemma items_misfits p v m s : misfits SO p v m s -> smake_spec_items SO p v = SErr (FType m) s.
Proof.
  destruct 1 as [a s e|a e s H|a s e H|a s e H N]; cbn [smake_spec_items source_span]; [reflexivity| | |].
  - apply whole_expr_span in H as ->. reflexivity.
  - rewrite smatch_spec. destruct (list_eq_dec _ _ _) as [E|_]; [rewrite E in H; congruence|].
    destruct (Nat.eqb_spec (List.length (kinds_in_level_order a)) (List.length (kinds_in_level_order e))); [contradiction|reflexivity].
  - rewrite smatch_spec. destruct (list_eq_dec _ _ _) as [E|_]; [contradiction|]. rewrite H, Nat.eqb_refl. reflexivity.
Qed.
Lemma fits_or p v : (exists items, fits p v items) \/ exists m s, misfits SO p v m s.
Proof.
  destruct p as [a|a], v as [e|s e].
  - left. eexists. constructor.
  - right. do 2 eexists. constructor.
  - right. do 2 eexists. apply value_for_tuple, expr_span_whole.
  - destruct (list_eq_dec bool_dec (kinds_in_level_order a) (kinds_in_level_order e)) as [E|N]; [left; eexists; constructor; exact E|right].
    destruct (Nat.eq_dec (List.length (kinds_in_level_order a)) (List.length (kinds_in_level_order e))) as [E|N'].
    + do 2 eexists. apply other_shape; assumption.
    + do 2 eexists. apply other_number; assumption.
Qed.

(** ** One round *)
Lemma round_items loops vals items : round_fits loops vals items -> sloop_items SO loops vals = SOk items.
Proof. induction 1 as [|l ls v vs items rest H _ IH]; [reflexivity|]. cbn [sloop_items]. rewrite (items_fits _ _ _ H), IH. reflexivity. Qed.
Lemma round_misfit loops vals m s : round_misfits SO loops vals m s -> sloop_items SO loops vals = SErr (FType m) s.
Proof.
  induction 1 as [l ls v vs m s H|l ls v vs items m s H _ IH]; cbn [sloop_items].
  - rewrite (items_misfits _ _ _ _ H). reflexivity.
  - rewrite (items_fits _ _ _ H), IH. reflexivity.
Qed.
Lemma round_or loops : forall vals, List.length vals = List.length loops ->
  (exists items, round_fits loops vals items) \/ exists m s, round_misfits SO loops vals m s.
Proof.
  induction loops as [|l ls IH]; intros [|v vs] H; try discriminate H; [left; eexists; constructor|].
  destruct (fits_or (sl_pattern l) v) as [(items & Hf)|(m & s & Hm)]; [|right; do 2 eexists; constructor; exact Hm].
  destruct (IH vs ltac:(cbn in H; lia)) as [(rest & Hr)|(m & s & Hm)]; [left; eexists; constructor; eassumption|].
  right. do 2 eexists. eapply misfits_later; eassumption.
Qed.

(** ** All rounds *)
Section Exp.
Context {B : Type}.
Implicit Types ast : sraw_ast B.

Lemma sexpand_loop_at ast loops ss fuel : forall k c,
  at_ ss k c -> List.length (all_combinations ss) < fuel + k -> 0 < fuel ->
  sexpand_loop SO fuel ast loops c = smapM (srewrite_for SO ast loops) (skipn k (all_combinations ss)).
Proof.
  induction fuel as [|fuel IH]; intros k c H Hl Hp; [lia|].
  cbn [sexpand_loop]. destruct (next_at ss k c H) as (c1 & -> & H1). cbn [slift sbind].
  destruct (nth_error (all_combinations ss) k) as [x|] eqn:Hx.
  - assert (k < List.length (all_combinations ss)) by (apply nth_error_Some; congruence).
    rewrite (nth_error_skipn _ _ _ Hx). cbn [smapM].
    destruct (srewrite_for SO ast loops x); cbn [sbind]; try reflexivity.
    rewrite (IH (S k)) by (try exact H1; lia). reflexivity.
  - apply nth_error_None in Hx. rewrite skipn_all2 by exact Hx. reflexivity.
Qed.
Lemma sexpand_loops ast loops : sa_loops ast = Some loops ->
  sexpand SO ast = smapM (srewrite_for SO ast loops) (all_combinations (map sl_values loops)).
Proof.
  intros H. unfold sexpand. rewrite H, fold_cnt.
  rewrite (sexpand_loop_at ast loops (map sl_values loops) _ 0); [reflexivity|apply at_init| |lia].
  rewrite length_all. destruct (map sl_values loops); lia.
Qed.
Lemma combinations_length {A} (ss : list (list A)) : Forall (fun c => List.length c = List.length ss) (all_combinations ss).
Proof.
  assert (G : Forall (fun c => List.length c = List.length ss) (nested_loops ss)).
  { induction ss as [|s ss IH]; [repeat constructor|]. cbn [nested_loops]. apply Forall_forall. intros c Hc.
    apply in_flat_map in Hc as (x & _ & Hc). apply in_map_iff in Hc as (d & <- & Hd). rewrite Forall_forall in IH. cbn. rewrite (IH _ Hd). reflexivity. }
  destruct ss; [constructor|exact G].
Qed.
Lemma rounds_or ast : (exists rs, has_rounds ast rs) \/ exists m s, has_misfit SO ast m s.
Proof.
  unfold has_rounds, has_misfit. destruct (sa_loops ast) as [loops|]; [|left; eauto].
  assert (G : forall cs, Forall (fun c => List.length c = List.length loops) cs ->
    (exists rs, Forall2 (fun c r => exists items, round_fits loops c items /\ r = items ++ own_sitems ast) cs rs) \/
    exists m s before c after, cs = before ++ c :: after /\ Forall (fun b => exists items, round_fits loops b items) before /\ round_misfits SO loops c m s).
  { induction 1 as [|c cs Hc _ IH]; [left; eexists; constructor|].
    destruct (round_or loops c Hc) as [(items & Hf)|(m & s & Hm)]; [|right; exists m, s, [], c, cs; auto].
    destruct IH as [(rs & Hr)|(m & s & before & d & after & -> & Hb & Hm)]; [left; exists ((items ++ own_sitems ast) :: rs); constructor; eauto|].
    right. exists m, s, (c :: before), d, after. split; [reflexivity|]. split; [constructor; eauto|exact Hm]. }
  destruct (G (all_combinations (map sl_values loops))) as [?|(m & s & before & c & after & Hc)]; [|left; assumption|right; exists m, s, loops, before, c, after; tauto].
  eapply Forall_impl; [|apply combinations_length]. intros c. rewrite map_length. auto.
Qed.

Lemma rewrite_fits ast loops c items : round_fits loops c items ->
  exists sp, srewrite_for SO ast loops c = SOk (sp, sa_block ast) /\ ss_items sp = items ++ own_sitems ast.
Proof.
  intros H. unfold srewrite_for, own_sitems. rewrite (round_items _ _ _ H). cbn [sbind].
  destruct (sa_spec ast); eexists; (split; [reflexivity|]); [reflexivity|]. cbn [ss_items]. rewrite app_nil_r. reflexivity.
Qed.
Lemma sexpand_rounds ast rs : has_rounds ast rs ->
  exists rws, sexpand SO ast = SOk rws /\ Forall2 (fun r rw => ss_items (fst rw) = r /\ snd rw = sa_block ast) rs rws.
Proof.
  unfold has_rounds. destruct (sa_loops ast) as [loops|] eqn:E.
  - intros H. rewrite (sexpand_loops _ _ E). induction H as [|c r cs rs (items & Hf & ->) _ (rws & IH & HF)]; [exists []; split; [reflexivity|constructor]|].
    destruct (rewrite_fits ast loops c items Hf) as (sp & Hs & Hi). exists ((sp, sa_block ast) :: rws). cbn [smapM]. rewrite Hs, IH. split; [reflexivity|].
    constructor; [split; [exact Hi|reflexivity]|exact HF].
  - intros ->. unfold sexpand, own_sitems. rewrite E. eexists. split; [reflexivity|]. constructor; [|constructor]. cbn [fst snd]. split; [destruct (sa_spec ast); reflexivity|reflexivity].
Qed.
Lemma sexpand_misfit ast m s : has_misfit SO ast m s -> sexpand SO ast = SErr (FType m) s.
Proof.
  intros (loops & before & c & after & E & Hc & Hb & Hm). rewrite (sexpand_loops _ _ E), Hc. clear Hc.
  induction Hb as [|b before (items & Hf) _ IH]; cbn [app smapM].
  - unfold srewrite_for at 1. rewrite (round_misfit _ _ _ _ Hm). reflexivity.
  - destruct (rewrite_fits ast loops b items Hf) as (sp & -> & _). cbn [sbind]. rewrite IH. reflexivity.
Qed.
Lemma not_both ast rs m s : has_rounds ast rs -> has_misfit SO ast m s -> False.
Proof. intros H1 H2. destruct (sexpand_rounds ast rs H1) as (rws & E & _). rewrite (sexpand_misfit ast m s H2) in E. discriminate. Qed.
End Exp.
End Unroll.

Section Execute.
Context (O : oracles) (SO : soracles) (SY : ssyntax).

Lemma round_sexecute env t block items rw : ss_items (fst rw) = items -> snd rw = block ->
  sexecute_block_rewrite O SO SY env t rw = sexecute O SO SY env t (sround_ast block items).
Proof.
  intros <- <-. unfold sexecute at 1, sexpand, sround_ast. cbn [sa_loops sa_spec sa_block sbind smapM].
  unfold sexecute_block_rewrite at 2. cbn [fst snd ss_items]. unfold sexecute_block_rewrite.
  destruct (sbind _ _); [|reflexivity|reflexivity]. cbn [sbind List.concat]. rewrite app_nil_r. reflexivity.
Qed.
Lemma sexecute_rounds env t ast rs : has_rounds ast rs ->
  sexecute O SO SY env t ast = sin_sequence (map (fun items => sexecute O SO SY env t (sround_ast (sa_block ast) items)) rs).
Proof.
  intros H. destruct (sexpand_rounds SO ast rs H) as (rws & E & HF). unfold sexecute at 1. rewrite E. cbn [sbind]. clear E H.
  induction HF as [|r rw rs rws (Hr & Hb) _ IH]; [reflexivity|]. cbn [map sin_sequence smapM]. rewrite <- IH, (round_sexecute _ _ _ _ _ Hr Hb).
  destruct (sexecute O SO SY env t _); [|reflexivity|reflexivity]. cbn [sbind]. destruct (smapM _ rws); reflexivity.
Qed.
Lemma sexecute_misfit env t ast m s : has_misfit SO ast m s -> sexecute O SO SY env t ast = SErr (FType m) s.
Proof. intros H. unfold sexecute. rewrite (sexpand_misfit SO ast m s H). reflexivity. Qed.
End Execute.
