(** Definitions that are replaced by the values they come to, with spans. *)
From Coq Require Import String.
From Verif Require Import Base BaseFacts Token Types TypesProofs Values Ast Env SpecElab ElabFacts BuiltinFacts Failures
  SpanTokens SpanWalker SpanValues SpanEval SpecSpanEval SpanEvalProofs SpecComputed ComputedProofs SpecSpanComputed.
Open Scope list_scope.

Section Definitions.
Context (O : oracles) (SO : soracles) (HS : spanless O SO) (seed first : N).
Notation env := (new_initialized O seed first).

Lemma sbind_ok {A B} (x : sres A) (f : A -> sres B) r : sbind x f = SOk r -> exists a, x = SOk a /\ f a = SOk r.
Proof. destruct x as [a|e s|p]; try discriminate. intros H. exists a. auto. Qed.
Lemma selab_app l1 : forall G l2, selab_items O SO env G (l1 ++ l2) =
  let? t1 := selab_items O SO env G l1 in let? t2 := selab_items O SO env (tenv_of t1 ++ G) l2 in SOk (t1 ++ t2).
Proof.
  induction l1 as [|[n e] l1 IH]; intros G l2; cbn [app selab_items sbind].
  - change (tenv_of [] ++ G) with G. destruct (selab_items O SO env G l2); reflexivity.
  - destruct (elab env G (erase_expr e) None) as [[te c]|]; [|reflexivity]. destruct (assoc_str n G); [reflexivity|]. rewrite IH.
    destruct (selab_items O SO env ((n, target_of te) :: G) l1) as [t1|er s|p]; try reflexivity. cbn [sbind].
    assert (E : tenv_of ((n, te) :: t1) ++ G = tenv_of t1 ++ (n, target_of te) :: G) by (unfold tenv_of; cbn [map rev]; rewrite <- app_assoc; reflexivity).
    rewrite E. destruct (selab_items O SO env (tenv_of t1 ++ (n, target_of te) :: G) l2); reflexivity.
Qed.
Lemma srun_app l1 : forall t1 ctx t2 l2, length t1 = length l1 -> srun_items O SO seed ctx (t1 ++ t2) (l1 ++ l2) =
  let? b1 := srun_items O SO seed ctx t1 l1 in let? b2 := srun_items O SO seed (rev b1 ++ ctx) t2 l2 in SOk (b1 ++ b2).
Proof.
  induction l1 as [|[n e] l1 IH]; intros [|[m te] t1] ctx t2 l2 H; try discriminate; cbn [app srun_items sbind].
  - cbn [rev app]. destruct (srun_items O SO seed ctx t2 l2); reflexivity.
  - destruct (srun O SO seed ctx te e) as [v|er s|p]; try reflexivity. cbn [sbind]. injection H as H. rewrite (IH t1 _ t2 l2 H).
    destruct (srun_items O SO seed ((m, v) :: ctx) t1 l1) as [b1|er s|p]; try reflexivity. cbn [sbind rev]. rewrite <- app_assoc. cbn [app].
    destruct (srun_items O SO seed (rev b1 ++ (m, v) :: ctx) t2 l2); reflexivity.
Qed.
Lemma selab_names l : forall G t, selab_items O SO env G l = SOk t -> map fst t = map fst l.
Proof.
  induction l as [|[n e] l IH]; intros G t H; cbn [selab_items] in H; [injection H as <-; reflexivity|].
  destruct (elab env G (erase_expr e) None) as [[te c]|]; [|discriminate]. destruct (assoc_str n G); [discriminate|]. apply sbind_ok in H as (t' & H & E). injection E as <-.
  cbn [map fst]. f_equal. eapply IH; exact H.
Qed.
Lemma srun_names l : forall t ctx bs, srun_items O SO seed ctx t l = SOk bs -> length t = length l -> map fst bs = map fst t.
Proof.
  induction l as [|[n e] l IH]; intros [|[m te] t] ctx bs H Hl; try discriminate; cbn [srun_items] in H; [injection H as <-; reflexivity|].
  apply sbind_ok in H as (v & Hv & H). apply sbind_ok in H as (b & H & E). injection E as <-. cbn [map fst]. f_equal. injection Hl as Hl. eapply IH; eassumption.
Qed.

(** The type of the value of the last definition. *)
Lemma last_type items t ti bs b : elab_items env [] items = Ok (t ++ [ti]) -> bindings O env items = Ok (bs ++ [b]) -> type_of (snd b) = target_of (snd ti).
Proof.
  intros E R. pose proof (items_sound O seed first _ [] [] _ (Forall2_nil _) E) as S. unfold bindings in R. rewrite E in R. cbn [bind] in R. change (e_seed env) with seed in R. rewrite R in S.
  apply Forall2_app_inv_l in S as (x & y & _ & Hy & Exy). inversion Hy as [|? ? ? ? (_ & Ht) Hn]; subst. inversion Hn; subst. apply ends_same in Exy as (_ & <-). exact Ht.
Qed.
Lemma one_scomputed pre a e bs w id post : sbindings O SO env (pre ++ [(a, e)]) = SOk (bs ++ [(a, w)]) -> (forall x s, w = SVIdent x s -> ~ In x (map fst pre)) ->
  sbindings O SO env (pre ++ (a, SEValue id w) :: post) = sbindings O SO env (pre ++ (a, e) :: post).
Proof.
  intros H Hw. pose proof (sbindings_erase O SO seed first HS (pre ++ [(a, e)])) as Her. rewrite H in Her.
  cbn [SpecSpans.forget] in Her. unfold erase_bindings in Her. rewrite map_app in Her. cbn [map fst snd] in Her.
  unfold sbindings in *. rewrite selab_app in H. rewrite !selab_app.
  destruct (selab_items O SO env [] pre) as [t1|er s|p] eqn:E1; try discriminate. cbn [sbind] in *. rewrite app_nil_r in *.
  cbn [selab_items] in H |- *. destruct (elab env (tenv_of t1) (erase_expr e) None) as [[te c]|] eqn:Ee; [|discriminate].
  destruct (assoc_str a (tenv_of t1)) eqn:Ea; [discriminate|]. cbn [sbind] in H. change (e_seed env) with seed in *.
  assert (Ht1 : map fst t1 = map fst pre) by exact (selab_names _ _ _ E1).
  assert (Hl : length t1 = length pre) by (apply (f_equal (@length _)) in Ht1; rewrite !map_length in Ht1; exact Ht1).
  rewrite (srun_app pre t1 [] _ _ Hl) in H. destruct (srun_items O SO seed [] t1 pre) as [b1|er s|p] eqn:R1; try discriminate. cbn [sbind srun_items] in H. rewrite app_nil_r in H.
  destruct (srun O SO seed (rev b1) te e) as [v|er s|p] eqn:Rv; try discriminate. cbn [sbind] in H. injection H as H. apply ends_same in H as (<- & H). injection H as ->.
  assert (Hv : type_of (erase_value w) = target_of te).
  { assert (E2 : elab_items env [] (erase_spec (pre ++ [(a, e)])) = Ok (t1 ++ [(a, te)])).
    { rewrite <- (selab_erase O SO seed first). rewrite selab_app, E1. cbn [sbind selab_items]. rewrite app_nil_r, Ee, Ea. reflexivity. }
    exact (last_type _ _ _ _ _ E2 (eq_sym Her)). }
  assert (Hn : map fst b1 = map fst pre) by (rewrite (srun_names _ _ _ _ R1 Hl); exact Ht1).
  assert (Hst : static_type (tenv_of t1) (erase_value w) = type_of (erase_value w)).
  { destruct w as [x s| | | | | | |]; try reflexivity. cbn [erase_value static_type type_of]. assert (N : assoc_str x (tenv_of t1) = None); [|rewrite N; reflexivity].
    apply assoc_str_None. unfold tenv_of. rewrite map_rev, <- in_rev, map_map. cbn [fst]. change (~ In x (map fst t1)). rewrite Ht1. exact (Hw x s eq_refl). }
  cbn [erase_expr elab]. rewrite Hst, cost_same. cbn [target_of]. rewrite Hv.
  destruct (selab_items O SO env ((a, target_of te) :: tenv_of t1) post) as [t2|er s|p]; try reflexivity. cbn [sbind].
  rewrite !(srun_app pre t1 [] _ _ Hl), R1. cbn [sbind srun_items]. rewrite app_nil_r, Rv. cbn [srun].
  assert (Hlk : match w with SVIdent x _ => match assoc_str x (rev b1) with Some u => u | None => w end | _ => w end = w).
  { destruct w as [x s| | | | | | |]; try reflexivity. assert (N : assoc_str x (rev b1) = None); [|rewrite N; reflexivity].
    apply assoc_str_None. rewrite map_rev, <- in_rev, Hn. exact (Hw x s eq_refl). }
  rewrite Hlk. unfold stry_cast. rewrite erase_type, Hv, ty_eqb_refl. reflexivity.
Qed.
Theorem definitions_scomputed pre l l' : scomputed O SO env pre l l' -> sbindings O SO env (pre ++ l') = sbindings O SO env (pre ++ l).
Proof.
  induction 1 as [pre|pre d l l' _ IH|pre a e bs w id l l' Hb Hw _ IH]; [reflexivity| |].
  - rewrite <- !app_assoc in IH. exact IH.
  - refine (eq_trans (one_scomputed pre a e bs w id l' Hb Hw) _). rewrite <- !app_assoc in IH. exact IH.
Qed.
End Definitions.
