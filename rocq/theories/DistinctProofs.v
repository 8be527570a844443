(** Names composed in a loop. *)
From Coq Require Import String.
From Verif Require Import Base BaseFacts Token Types Values Ast Env Item Deprecation Interpreter Parse Macro SpecProduct
  SpecElab SpecScope SpecPrograms SpecParse SpecSubst SpecItem SpecDeprecation SpecMacro SpecRepro SpecCalls SpecFunctions SpecStrings SpecNested SpecEitherOrder SpecDistinct
  ElabFacts ElabProofs BuiltinFacts CallFacts FunctionProofs NamingProofs MeaningProofs NestedProofs EitherOrderProofs.
Open Scope list_scope.

Lemma idents_names l : idents_of (map VIdent l) = Some l.
Proof. induction l as [|x l IH]; [reflexivity|]. cbn [map idents_of fold_right]. fold (idents_of (map VIdent l)). rewrite IH. reflexivity. Qed.
Lemma concat_names O seed raw l v : call_meaning O seed (txt "concat") raw (map VIdent l) = Ok v -> v = VIdent (List.concat l).
Proof.
  change (call_meaning O seed (txt "concat") raw (map VIdent l)) with (concat_meaning O (map VIdent l)). destruct l as [|x l]; [discriminate|].
  unfold concat_meaning. rewrite idents_names. cbn [map]. unfold identifier. destruct (ident_ok O _); [|discriminate]. intros H. injection H as <-. reflexivity.
Qed.
Theorem one_part O seed raw raw' l r x y v : call_meaning O seed (txt "concat") raw (map VIdent (l ++ x :: r)) = Ok v ->
  call_meaning O seed (txt "concat") raw' (map VIdent (l ++ y :: r)) = Ok v -> x = y.
Proof.
  intros H H'. apply concat_names in H. apply concat_names in H'. rewrite H in H'. injection H' as H'. rewrite !concat_app in H'. apply app_inv_head in H'. cbn [List.concat] in H'. apply app_inv_tail in H'. exact H'.
Qed.
Lemma split_at (c : chr) x y x' y' : ~ In c x -> ~ In c x' -> x ++ c :: y = x' ++ c :: y' -> x = x' /\ y = y'.
Proof.
  revert x'. induction x as [|a x IH]; intros [|b x'] Hx Hx' H; cbn [app] in H.
  - injection H as <-. auto.
  - injection H as <- _. exfalso. apply Hx'. left. reflexivity.
  - injection H as -> _. exfalso. apply Hx. left. reflexivity.
  - injection H as <- H. destruct (IH x' (fun K => Hx (or_intror K)) (fun K => Hx' (or_intror K)) H) as (-> & ->). auto.
Qed.
Theorem two_parts O seed raw raw' l r x y x' y' c s v : ~ In c x -> ~ In c x' ->
  call_meaning O seed (txt "concat") raw (map VIdent (l ++ x :: (c :: s) :: y :: r)) = Ok v ->
  call_meaning O seed (txt "concat") raw' (map VIdent (l ++ x' :: (c :: s) :: y' :: r)) = Ok v -> x = x' /\ y = y'.
Proof.
  intros Hx Hx' H H'. apply concat_names in H. apply concat_names in H'. rewrite H in H'. injection H' as H'. rewrite !concat_app in H'. apply app_inv_head in H'. cbn [List.concat] in H'.
  apply split_at in H' as (<- & H'); [|assumption..]. split; [reflexivity|]. apply app_inv_head in H'. apply app_inv_tail in H'. exact H'.
Qed.

(** ** Other values *)
Lemma idents_texts O vs l : names_print O -> Forall (wordy O) vs -> idents_of vs = Some l -> l = map (text_of O) vs.
Proof.
  intros Hp. revert l. induction vs as [|v vs IH]; intros l Hw H; [injection H as <-; reflexivity|]. inversion Hw as [|? ? (_ & Hv) Hw']; subst. cbn [idents_of fold_right] in H. fold (idents_of vs) in H.
  destruct v as [x| | | | | | |]; try discriminate H. destruct (idents_of vs) as [l'|]; [|discriminate]. injection H as <-. cbn [map]. rewrite (IH l' Hw' eq_refl). f_equal.
  symmetry. exact (Hp x (Hv x eq_refl)).
Qed.
Lemma words_concat l : Forall (fun x => forallb word_char x = true) l -> forallb word_char (List.concat l) = true.
Proof. induction 1 as [|x l Hx _ IH]; [reflexivity|]. cbn [List.concat]. rewrite forallb_app, Hx, IH. reflexivity. Qed.
Lemma composed_text O seed raw x vs v : names_print O -> words_read O -> Forall (wordy O) (VIdent x :: vs) ->
  call_meaning O seed (txt "concat") raw (VIdent x :: vs) = Ok v -> v = VIdent (List.concat (map (text_of O) (VIdent x :: vs))).
Proof.
  intros Hp Hr Hw. change (call_meaning O seed (txt "concat") raw (VIdent x :: vs)) with (concat_meaning O (VIdent x :: vs)). unfold concat_meaning.
  destruct (idents_of (VIdent x :: vs)) as [l|] eqn:E.
  - rewrite (idents_texts O _ l Hp Hw E). unfold identifier. destruct (ident_ok O _); [|discriminate]. intros H. injection H as <-. reflexivity.
  - change (strings_of (VIdent x :: vs)) with (@None (list str)). change (ints_of (VIdent x :: vs)) with (@None (list str)). cbn match.
    destruct (parse_str_ident O _) as [y|] eqn:Ey; [|discriminate]. intros H. injection H as <-. f_equal. apply Hr in Ey; [exact Ey|].
    apply words_concat. apply Forall_map. eapply Forall_impl; [|exact Hw]. intros u (Hu & _). exact Hu.
Qed.
Theorem one_value O seed raw raw' x l r v w z : names_print O -> words_read O -> Forall (wordy O) (VIdent x :: l ++ v :: r) -> Forall (wordy O) (VIdent x :: l ++ w :: r) ->
  call_meaning O seed (txt "concat") raw (VIdent x :: l ++ v :: r) = Ok z -> call_meaning O seed (txt "concat") raw' (VIdent x :: l ++ w :: r) = Ok z -> text_of O v = text_of O w.
Proof.
  intros Hp Hr Hv Hw H H'. apply (composed_text O seed raw _ _ _ Hp Hr Hv) in H. apply (composed_text O seed raw' _ _ _ Hp Hr Hw) in H'. rewrite H in H'. injection H' as H'.
  apply app_inv_head in H'. rewrite !map_app, !concat_app in H'. apply app_inv_head in H'. cbn [map List.concat] in H'. apply app_inv_tail in H'. exact H'.
Qed.

Section Loops.
Context (O : oracles) (seed first : N).
Notation env := (new_initialized O seed first).

Lemma bindings_prefix items1 items2 bs : bindings O env (items1 ++ items2) = Ok bs -> exists b1 b2, bindings O env items1 = Ok b1 /\ bs = b1 ++ b2.
Proof.
  rewrite bindings_split. intros H. apply bind_Ok in H as (t1 & H1 & H). apply bind_Ok in H as (t2 & _ & H). apply bind_Ok in H as (b1 & Hb & H). apply bind_Ok in H as (b2 & _ & H). injection H as <-.
  exists b1, b2. unfold bindings. rewrite H1. split; [exact Hb|reflexivity].
Qed.
Lemma call_value pre n id name leaves raw post bs : bindings O env (pre ++ (n, ECall id name (plain leaves) raw) :: post) = Ok bs ->
  exists b1 v b2, bs = b1 ++ (n, v) :: b2 /\ bindings O env pre = Ok b1 /\ call_meaning O seed name (option_map snd raw) (map (fun l => lookup_value b1 (snd l)) leaves) = Ok v /\ ~ In n (map fst pre).
Proof.
  intros H. assert (Hnd : NoDup (map fst (pre ++ (n, ECall id name (plain leaves) raw) :: post))).
  { pose proof H as H'. unfold bindings in H'. apply bind_Ok in H' as (t & Ht & _). pose proof (elab_items_NoDup _ _ _ _ Ht) as (Hnd & _). exact Hnd. }
  change (pre ++ (n, ECall id name (plain leaves) raw) :: post) with (pre ++ [(n, ECall id name (plain leaves) raw)] ++ post) in H. rewrite app_assoc in H.
  apply bindings_prefix in H as (b & b2 & H & ->). destruct (bindings_prefix _ _ _ H) as (b1 & b' & H1 & ->).
  assert (Hn : ~ In n (map fst pre)). { rewrite map_app in Hnd. intros Hin. exact (nodup_apart _ _ n Hnd Hin (or_introl eq_refl)). }
  destruct (bindings_snoc O seed first pre n (ECall id name (plain leaves) raw) b1 H1 Hn) as (G & Hc & E'). pose proof (eq_trans (eq_sym H) E') as E. clear E'.
  assert (Hb : NoDup (map fst b1)). { rewrite (bindings_names O env _ _ H1). rewrite map_app in Hnd. clear -Hnd. induction (map fst pre) as [|x q IH]; [constructor|]. inversion Hnd as [|? ? K1 K2]; subst. constructor; [intros K; apply K1, in_app_iff; left; exact K|exact (IH K2)]. }
  pose proof (function_run O seed first G b1 Hc Hb id name leaves raw) as R. unfold outcome_of in R.
  destruct (elab env G (ECall id name (plain leaves) raw) None) as [[te c]|er]; [|discriminate]. apply eq_sym, bind_Ok in E as (v & Hv & E). injection E as E. apply app_inv_head in E. subst b'.
  exists b1, v, b2. split; [rewrite <- app_assoc; reflexivity|]. split; [exact H1|]. split; [|exact Hn]. rewrite <- Hv. symmetry. exact R.
Qed.
Lemma first_value var k x items bs : bindings O env ((var, EValue k (VIdent x)) :: items) = Ok bs -> exists b, bs = (var, VIdent x) :: b.
Proof.
  intros H. destruct (bindings_prefix [(var, EValue k (VIdent x))] items bs H) as (b1 & b2 & H1 & ->). cbv in H1. injection H1 as <-. exists b2. reflexivity.
Qed.
Lemma assoc_in_middle {A} n (b1 : list (str * A)) v b2 : ~ In n (map fst b1) -> assoc_str n (b1 ++ (n, v) :: b2) = Some v.
Proof.
  induction b1 as [|[m w] b1 IH]; intros H; cbn [app assoc_str]; [rewrite str_eqb_refl; reflexivity|].
  destruct (str_eqb n m) eqn:E; [apply str_eqb_eq in E as ->; exfalso; apply H; left; reflexivity|]. apply IH. intros K. apply H. right. exact K.
Qed.

Lemma loop_rounds {B} (ast : raw_ast B) var values : ast_loops ast = Some [{| loop_pattern := LASimple var; loop_values := name_values values |}] ->
  rounds ast = map Some (map (fun p => (var, EValue (fst p) (VIdent (snd p))) :: own_items ast) values).
Proof.
  intros H. unfold rounds. rewrite H. cbn [map all_combinations nested_loops loop_values loop_pattern]. clear H. induction values as [|p values IH]; [reflexivity|].
  cbn [name_values map flat_map app all_matched matched option_map]. f_equal. exact IH.
Qed.
Theorem loop_names {B} (ast : raw_ast B) var values n l r bss : composes ast var values n l r -> round_bindings O env ast = Ok bss ->
  Forall2 (fun p bs => assoc_str n bs = Some (VIdent (List.concat (map snd l) ++ snd p ++ List.concat (map snd r)))) values bss.
Proof.
  intros (HL & (pre & id & k & raw & post & HI) & HC) H. unfold round_bindings in H. rewrite (loop_rounds _ _ _ HL), all_some_of in H.
  assert (HA : forall x, In x (var :: map fst pre) -> In x (ast_aliases ast)).
  { intros x Hx. rewrite own_aliases. unfold loops_of. rewrite HL, HI, map_app. cbn [flat_map loop_pattern]. destruct Hx as [->|Hx]; [left; reflexivity|]. apply in_app_iff. right. apply in_app_iff. left. exact Hx. }
  clear HL. revert bss H. induction values as [|p values IH]; intros bss H; cbn [map mapM] in H; [injection H as <-; constructor|].
  apply bind_Ok in H as (bs & Hb & H). apply bind_Ok in H as (bss' & Hbs & H). injection H as <-. constructor; [|exact (IH bss' Hbs)]. clear IH Hbs.
  rewrite HI in Hb. destruct (first_value _ _ _ _ _ Hb) as (b & Eb). destruct (call_value ((var, EValue (fst p) (VIdent (snd p))) :: pre) n id _ _ raw post bs Hb) as (b1 & v & b2 & -> & H1 & Hv & Hn).
  pose proof (bindings_names O env _ _ H1) as Hnm. cbn [map fst] in Hnm.
  destruct (first_value _ _ _ _ _ H1) as (b1' & E1).
  assert (El : forall q, In q (l ++ r) -> lookup_value b1 (VIdent (snd q)) = VIdent (snd q)).
  { intros q Hq. cbn [lookup_value]. assert (N : assoc_str (snd q) b1 = None); [|rewrite N; reflexivity]. apply assoc_str_None. intros Hin. rewrite Hnm in Hin.
    exact (HC (snd q) (in_map snd _ _ Hq) (HA _ Hin)). }
  assert (Ep : map (fun l => lookup_value b1 (snd l)) (name_args (l ++ (k, var) :: r)) = map VIdent (map snd l ++ snd p :: map snd r)).
  { unfold name_args. rewrite map_map. cbn [snd]. rewrite !map_app. cbn [map snd]. f_equal; [|f_equal].
    - rewrite map_map. apply map_ext_in. intros q Hq. apply El. apply in_app_iff. left. exact Hq.
    - rewrite E1. cbn [lookup_value assoc_str]. rewrite str_eqb_refl. reflexivity.
    - rewrite map_map. apply map_ext_in. intros q Hq. apply El. apply in_app_iff. right. exact Hq. }
  rewrite Ep in Hv. apply concat_names in Hv. subst v. rewrite assoc_in_middle by (rewrite Hnm; exact Hn). rewrite concat_app. reflexivity.
Qed.
Lemma any_first_value var k v items bs : bindings O env ((var, EValue k v) :: items) = Ok bs -> exists b, bs = (var, v) :: b.
Proof.
  intros H. destruct (bindings_prefix [(var, EValue k v)] items bs H) as (b1 & b2 & H1 & ->). destruct v; cbv in H1; injection H1 as <-; exists b2; reflexivity.
Qed.
Lemma any_loop_rounds {B} (ast : raw_ast B) var values : ast_loops ast = Some [{| loop_pattern := LASimple var; loop_values := any_values values |}] ->
  rounds ast = map Some (map (fun p => (var, EValue (fst p) (snd p)) :: own_items ast) values).
Proof.
  intros H. unfold rounds. rewrite H. cbn [map all_combinations nested_loops loop_values loop_pattern]. clear H. induction values as [|p values IH]; [reflexivity|].
  cbn [any_values map flat_map app all_matched matched option_map]. f_equal. exact IH.
Qed.
Theorem loop_texts {B} (ast : raw_ast B) var values n l r bss : names_print O -> words_read O -> Forall (wordy O) (map snd values) -> Forall (fun x => wordy O (VIdent x)) (map snd (l ++ r)) ->
  composes_with ast var values n l r -> round_bindings O env ast = Ok bss ->
  Forall2 (fun p bs => assoc_str n bs = Some (VIdent (List.concat (map snd l) ++ text_of O (snd p) ++ List.concat (map snd r)))) values bss.
Proof.
  intros Hp Hr Hvs Hlr (HL & (pre & id & k & raw & post & HI) & Hne & HC) H. unfold round_bindings in H. rewrite (any_loop_rounds _ _ _ HL), all_some_of in H.
  assert (HA : forall x, In x (var :: map fst pre) -> In x (ast_aliases ast)).
  { intros x Hx. rewrite own_aliases. unfold loops_of. rewrite HL, HI, map_app. cbn [flat_map loop_pattern]. destruct Hx as [->|Hx]; [left; reflexivity|]. apply in_app_iff. right. apply in_app_iff. left. exact Hx. }
  clear HL. revert bss H. induction values as [|p values IH]; intros bss H; cbn [map mapM] in H; [injection H as <-; constructor|]. cbn [map] in Hvs. inversion Hvs as [|? ? Hpw Hvs']; subst.
  apply bind_Ok in H as (bs & Hb & H). apply bind_Ok in H as (bss' & Hbs & H). injection H as <-. constructor; [|exact (IH Hvs' bss' Hbs)]. clear IH Hbs.
  rewrite HI in Hb. destruct (call_value ((var, EValue (fst p) (snd p)) :: pre) n id _ _ raw post bs Hb) as (b1 & v & b2 & -> & H1 & Hv & Hn).
  pose proof (bindings_names O env _ _ H1) as Hnm. cbn [map fst] in Hnm.
  destruct (any_first_value _ _ _ _ _ H1) as (b1' & E1).
  assert (El : forall q, In q (l ++ r) -> lookup_value b1 (VIdent (snd q)) = VIdent (snd q)).
  { intros q Hq. cbn [lookup_value]. assert (N : assoc_str (snd q) b1 = None); [|rewrite N; reflexivity]. apply assoc_str_None. intros Hin. rewrite Hnm in Hin.
    exact (HC (snd q) (in_map snd _ _ Hq) (HA _ Hin)). }
  assert (Ep : map (fun l => lookup_value b1 (snd l)) (name_args (l ++ (k, var) :: r)) = map VIdent (map snd l) ++ snd p :: map VIdent (map snd r)).
  { unfold name_args. rewrite map_map. cbn [snd]. rewrite !map_app. cbn [map snd]. f_equal; [|f_equal].
    - rewrite map_map. apply map_ext_in. intros q Hq. apply El. apply in_app_iff. left. exact Hq.
    - rewrite E1. cbn [lookup_value assoc_str]. rewrite str_eqb_refl. reflexivity.
    - rewrite map_map. apply map_ext_in. intros q Hq. apply El. apply in_app_iff. right. exact Hq. }
  rewrite Ep in Hv.
  assert (Hall : Forall (wordy O) (map VIdent (map snd l) ++ snd p :: map VIdent (map snd r))).
  { rewrite map_app in Hlr. apply Forall_app in Hlr as (Hl & Hr'). apply Forall_app. split; [apply Forall_map, Hl|]. constructor; [exact Hpw|apply Forall_map, Hr']. }
  assert (Ht : forall q, Forall (fun x => wordy O (VIdent x)) q -> map (text_of O) (map VIdent q) = q).
  { intros q Hq. rewrite map_map. induction Hq as [|x q (_ & Hx) _ IHq]; [reflexivity|]. cbn [map]. rewrite IHq. f_equal. exact (Hp x (Hx x eq_refl)). }
  rewrite map_app in Hlr. apply Forall_app in Hlr as (Hl & Hr').
  assert (Ev : v = VIdent (List.concat (map (text_of O) (map VIdent (map snd l) ++ snd p :: map VIdent (map snd r))))).
  { destruct l as [|q l]; [destruct (Hne eq_refl)|]. cbn [map app] in Hv, Hall |- *. exact (composed_text O seed _ _ _ _ Hp Hr Hall Hv). }
  subst v. rewrite assoc_in_middle by (rewrite Hnm; exact Hn). rewrite map_app, concat_app. cbn [map List.concat]. rewrite !Ht by assumption. reflexivity.
Qed.
Lemma names_distinct {A} (f : str -> A) (g : venv -> A) {V} (t : V -> str) (values : list (N * V)) (bss : list venv) : (forall x y, f x = f y -> x = y) -> Forall2 (fun p bs => g bs = f (t (snd p))) values bss -> NoDup (map (fun p => t (snd p)) values) -> NoDup (map g bss).
Proof.
  intros Hi HF. induction HF as [|p bs values bss Hp HF IH]; intros Hn; [constructor|]. cbn [map] in *. inversion Hn as [|? ? Hnp Hn']; subst. constructor; [|exact (IH Hn')].
  intros Hin. apply Hnp. rewrite Hp in Hin. clear -Hi HF Hin. induction HF as [|q bs values bss Hq _ IH]; [destruct Hin|]. cbn [map] in *. destruct Hin as [Hin|Hin]; [left|right; exact (IH Hin)].
  rewrite Hq in Hin. exact (Hi _ _ Hin).
Qed.
Theorem loop_names_distinct {B} (ast : raw_ast B) var values n l r bss : composes ast var values n l r -> round_bindings O env ast = Ok bss -> NoDup (map snd values) -> NoDup (map (assoc_str n) bss).
Proof.
  intros H Hb. apply (names_distinct (fun x => Some (VIdent (List.concat (map snd l) ++ x ++ List.concat (map snd r)))) _ (fun x => x)); [|exact (loop_names _ _ _ _ _ _ _ H Hb)].
  intros x y E. injection E as E. apply app_inv_head in E. apply app_inv_tail in E. exact E.
Qed.
Lemma two_loop_values a k x b k' y : str_eqb b a = false -> str_eqb y a = false ->
  bindings O env [(a, EValue k (VIdent x)); (b, EValue k' (VIdent y))] = Ok [(a, VIdent x); (b, VIdent y)].
Proof.
  intros Hb Hy. unfold bindings. cbn. rewrite Hb, Hy. cbn. rewrite Hy. reflexivity.
Qed.
Lemma two_loops_rounds {B} (ast : raw_ast B) a xs b ys :
  ast_loops ast = Some [{| loop_pattern := LASimple a; loop_values := name_values xs |}; {| loop_pattern := LASimple b; loop_values := name_values ys |}] ->
  rounds ast = map Some (map (fun p => (a, EValue (fst (fst p)) (VIdent (snd (fst p)))) :: (b, EValue (fst (snd p)) (VIdent (snd (snd p)))) :: own_items ast) (list_prod xs ys)).
Proof.
  intros H. unfold rounds. rewrite H. cbn [map all_combinations nested_loops loop_values loop_pattern]. clear H. induction xs as [|x xs IH]; [reflexivity|].
  cbn [name_values map flat_map list_prod]. fold (name_values xs). rewrite !map_app, IH. f_equal. clear IH. induction ys as [|y ys IH]; [reflexivity|].
  cbn [name_values map flat_map app all_matched matched option_map fst snd]. f_equal. exact IH.
Qed.
Theorem two_loops_names {B} (ast : raw_ast B) a xs b ys n l sep r bss : composes_two ast a xs b ys n l sep r -> round_bindings O env ast = Ok bss ->
  Forall2 (fun p bs => assoc_str n bs = Some (VIdent (List.concat (map snd l) ++ snd (fst p) ++ sep ++ snd (snd p) ++ List.concat (map snd r)))) (list_prod xs ys) bss.
Proof.
  intros (HL & (pre & id & k & ks & k' & raw & post & HI) & Hya & Hs & HC) H. unfold round_bindings in H. rewrite (two_loops_rounds _ _ _ _ _ HL), all_some_of in H.
  assert (HA : forall x, In x (a :: b :: map fst pre) -> In x (ast_aliases ast)).
  { intros x Hx. rewrite own_aliases. unfold loops_of. rewrite HL, HI, map_app. cbn [flat_map loop_pattern]. destruct Hx as [->|[->|Hx]]; [left; reflexivity|right; left; reflexivity|]. apply in_app_iff. right. apply in_app_iff. left. exact Hx. }
  assert (HP : forall p, In p (list_prod xs ys) -> str_eqb (snd (snd p)) a = false).
  { intros (x & y) Hp. apply in_prod_iff in Hp as (_ & Hp). cbn [snd]. destruct (str_eqb (snd y) a) eqn:E; [|reflexivity]. apply str_eqb_eq in E. destruct Hya. rewrite <- E. exact (in_map snd _ _ Hp). }
  clear HL. revert HP bss H. induction (list_prod xs ys) as [|p ps IH]; intros HP bss H; cbn [map mapM] in H; [injection H as <-; constructor|].
  apply bind_Ok in H as (bs & Hb & H). apply bind_Ok in H as (bss' & Hbs & H). injection H as <-. constructor; [|exact (IH (fun q Hq => HP q (or_intror Hq)) bss' Hbs)]. clear IH Hbs. specialize (HP p (or_introl eq_refl)).
  destruct p as ((k1 & x) & (k2 & y)). cbn [fst snd] in *.
  rewrite HI in Hb. destruct (call_value ((a, EValue k1 (VIdent x)) :: (b, EValue k2 (VIdent y)) :: pre) n id _ _ raw post bs Hb) as (b1 & v & b2 & -> & H1 & Hv & Hn).
  pose proof (bindings_names O env _ _ H1) as Hnm. cbn [map fst] in Hnm.
  assert (E1 : exists b3, b1 = (a, VIdent x) :: (b, VIdent y) :: b3 /\ str_eqb b a = false).
  { destruct (bindings_prefix [(a, EValue k1 (VIdent x)); (b, EValue k2 (VIdent y))] pre b1 H1) as (b4 & b3 & H4 & ->). exists b3.
    assert (Hnd : NoDup [a; b]). { pose proof H4 as H'. unfold bindings in H'. apply bind_Ok in H' as (t & Ht & _). exact (proj1 (elab_items_NoDup _ _ _ _ Ht)). }
    assert (Hab : str_eqb b a = false). { destruct (str_eqb b a) eqn:E; [|reflexivity]. apply str_eqb_eq in E as ->. inversion Hnd as [|? ? K _]. destruct K. left. reflexivity. }
    split; [|exact Hab].
    rewrite two_loop_values in H4 by assumption. injection H4 as <-. reflexivity. }
  destruct E1 as (b3 & E1 & Hab).
  assert (El : forall q, ~ In q (ast_aliases ast) -> lookup_value b1 (VIdent q) = VIdent q).
  { intros q Hq. cbn [lookup_value]. assert (N : assoc_str q b1 = None); [|rewrite N; reflexivity]. apply assoc_str_None. intros Hin. rewrite Hnm in Hin. exact (Hq (HA _ Hin)). }
  assert (Ep : map (fun l => lookup_value b1 (snd l)) (name_args (l ++ (k, a) :: (ks, sep) :: (k', b) :: r)) = map VIdent (map snd l ++ x :: sep :: y :: map snd r)).
  { unfold name_args. rewrite map_map. cbn [snd]. rewrite !map_app. cbn [map snd]. f_equal; [|f_equal; [|f_equal; [|f_equal]]].
    - rewrite map_map. apply map_ext_in. intros q Hq. apply El, HC, in_map, in_app_iff. left. exact Hq.
    - rewrite E1. cbn [lookup_value assoc_str]. rewrite str_eqb_refl. reflexivity.
    - exact (El sep Hs).
    - rewrite E1. cbn [lookup_value assoc_str]. rewrite Hab, str_eqb_refl. reflexivity.
    - rewrite map_map. apply map_ext_in. intros q Hq. apply El, HC, in_map, in_app_iff. right. exact Hq. }
  rewrite Ep in Hv. apply concat_names in Hv. subst v. rewrite assoc_in_middle by (rewrite Hnm; exact Hn). rewrite concat_app. reflexivity.
Qed.
End Loops.

Theorem use_names O P Y seed ast var values n l r ts uses i c : faithful O (reparse Y) -> covers Y -> (forall x, In x item_keywords -> ~ In x (ast_aliases ast)) ->
  composes ast var values n l r -> yields O P Y ast seed ts uses i c ->
  exists bss, c = flat_map (fun bs => substituted O (fun x => assoc_str x bs) ts) bss /\
    Forall2 (fun p bs => assoc_str n bs = Some (VIdent (List.concat (map snd l) ++ snd p ++ List.concat (map snd r)))) values bss /\
    (NoDup (map snd values) -> NoDup (map (assoc_str n) bss)).
Proof.
  intros Hfa Hco Hk Hc Hy. destruct (yields_code O P Y seed _ _ _ _ _ Hfa Hco Hk Hy) as (bss & Hb & -> & _). exists bss. split; [reflexivity|].
  split; [exact (loop_names O seed 0 _ _ _ _ _ _ _ Hc Hb)|exact (loop_names_distinct O seed 0 _ _ _ _ _ _ _ Hc Hb)].
Qed.

Theorem use_texts O P Y seed ast var values n l r ts uses i c : faithful O (reparse Y) -> covers Y -> (forall x, In x item_keywords -> ~ In x (ast_aliases ast)) ->
  names_print O -> words_read O -> Forall (wordy O) (map snd values) -> Forall (fun x => wordy O (VIdent x)) (map snd (l ++ r)) ->
  composes_with ast var values n l r -> yields O P Y ast seed ts uses i c ->
  exists bss, c = flat_map (fun bs => substituted O (fun x => assoc_str x bs) ts) bss /\
    Forall2 (fun p bs => assoc_str n bs = Some (VIdent (List.concat (map snd l) ++ text_of O (snd p) ++ List.concat (map snd r)))) values bss /\
    (NoDup (map (fun p => text_of O (snd p)) values) -> NoDup (map (assoc_str n) bss)).
Proof.
  intros Hfa Hco Hk Hp Hr Hv Hlr Hc Hy. destruct (yields_code O P Y seed _ _ _ _ _ Hfa Hco Hk Hy) as (bss & Hb & -> & _). exists bss. split; [reflexivity|].
  pose proof (loop_texts O seed 0 _ _ _ _ _ _ _ Hp Hr Hv Hlr Hc Hb) as HF. split; [exact HF|].
  apply (names_distinct (fun x => Some (VIdent (List.concat (map snd l) ++ x ++ List.concat (map snd r)))) _ (text_of O)); [|exact HF].
  intros x y E. injection E as E. apply app_inv_head in E. apply app_inv_tail in E. exact E.
Qed.

Lemma prod_nodup {A C D} (f : A * C -> D) (xs : list A) (ys : list C) : NoDup xs -> NoDup ys ->
  (forall x y x' y', In x xs -> In x' xs -> f (x, y) = f (x', y') -> x = x' /\ y = y') -> NoDup (map f (list_prod xs ys)).
Proof.
  intros Hx Hy Hi. induction Hx as [|x xs Hn Hx IH]; [constructor|]. cbn [list_prod]. rewrite map_app, map_map. 
  assert (K : forall q, NoDup q -> NoDup (map (fun y => f (x, y)) q)).
  { intros q. induction 1 as [|y q Hyn _ IHq]; [constructor|]. cbn [map]. constructor; [|exact IHq]. intros Hin. apply in_map_iff in Hin as (y' & E & Hy'). apply Hi in E as (_ & ->); [exact (Hyn Hy')|left; reflexivity..]. }
  assert (D' : forall z, In z (map (fun y => f (x, y)) ys) -> ~ In z (map f (list_prod xs ys))).
  { intros z Hz Hz'. apply in_map_iff in Hz as (y & <- & _). apply in_map_iff in Hz' as ((x' & y') & E & Hp). apply in_prod_iff in Hp as (Hx' & _).
    apply Hi in E as (-> & _); [exact (Hn Hx')|right; exact Hx'|left; reflexivity]. }
  assert (IH' : NoDup (map f (list_prod xs ys))) by (apply IH; intros x1 y1 x2 y2 H1 H2; apply Hi; right; assumption). clear IH Hi.
  specialize (K ys Hy). revert K D'. generalize (map (fun y => f (x, y)) ys) as q. induction q as [|z q IHq]; intros K D'; [exact IH'|]. cbn [app]. inversion K as [|? ? K1 K2]; subst. constructor.
  - intros Hin. apply in_app_iff in Hin as [Hin|Hin]; [exact (K1 Hin)|exact (D' z (or_introl eq_refl) Hin)].
  - apply (IHq K2). intros w Hw. exact (D' w (or_intror Hw)).
Qed.
Theorem use_two_loops O P Y seed ast a xs b ys n l sep r ts uses i c : faithful O (reparse Y) -> covers Y -> (forall x, In x item_keywords -> ~ In x (ast_aliases ast)) ->
  composes_two ast a xs b ys n l sep r -> yields O P Y ast seed ts uses i c ->
  exists bss, c = flat_map (fun bs => substituted O (fun x => assoc_str x bs) ts) bss /\
    Forall2 (fun p bs => assoc_str n bs = Some (VIdent (List.concat (map snd l) ++ fst p ++ sep ++ snd p ++ List.concat (map snd r)))) (list_prod (map snd xs) (map snd ys)) bss /\
    (forall d s, sep = d :: s -> (forall x, In x (map snd xs) -> ~ In d x) -> NoDup (map snd xs) -> NoDup (map snd ys) -> NoDup (map (assoc_str n) bss)).
Proof.
  intros Hfa Hco Hk Hc Hy. destruct (yields_code O P Y seed _ _ _ _ _ Hfa Hco Hk Hy) as (bss & Hb & -> & _). exists bss. split; [reflexivity|].
  pose proof (two_loops_names O seed 0 _ _ _ _ _ _ _ _ _ _ Hc Hb) as HF.
  assert (HF' : Forall2 (fun p bs => assoc_str n bs = Some (VIdent (List.concat (map snd l) ++ fst p ++ sep ++ snd p ++ List.concat (map snd r)))) (list_prod (map snd xs) (map snd ys)) bss).
  { assert (E : list_prod (map snd xs) (map snd ys) = map (fun p => (snd (fst p), snd (snd p))) (list_prod xs ys)).
    { clear. induction xs as [|x xs IH]; [reflexivity|]. cbn [map list_prod]. rewrite map_app, IH. f_equal. rewrite !map_map. reflexivity. }
    rewrite E. clear -HF. induction HF as [|p bs ps bss Hp _ IH]; [constructor|]. cbn [map]. constructor; [exact Hp|exact IH]. }
  split; [exact HF'|]. intros d s -> Hd Hx Hys.
  assert (E : map (assoc_str n) bss = map (fun p => Some (VIdent (List.concat (map snd l) ++ fst p ++ (d :: s) ++ snd p ++ List.concat (map snd r)))) (list_prod (map snd xs) (map snd ys))).
  { clear -HF'. induction HF' as [|p bs ps bss Hp _ IH]; [reflexivity|]. cbn [map]. rewrite Hp, IH. reflexivity. }
  rewrite E. apply prod_nodup; [assumption..|]. intros x y x' y' Hix Hix' K. cbn [fst snd] in K. injection K as K. apply app_inv_head in K. cbn [app] in K.
  apply split_at in K as (<- & K); [|exact (Hd _ Hix)|exact (Hd _ Hix')]. split; [reflexivity|]. apply app_inv_head in K. apply app_inv_tail in K. exact K.
Qed.
