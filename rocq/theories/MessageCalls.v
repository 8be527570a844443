(** Proofs for C50: the text of a call. *)
From Coq Require Import String.
From Verif Require Import Base Token Types Values Ast Env FormatString Messages SpecMessages.
Open Scope list_scope.

Lemma not_mark c : ~ mark c -> c <> 34%N /\ c <> 40%N /\ c <> 41%N /\ c <> 44%N.
Proof. unfold mark. intuition. Qed.

(** Where an argument ends: a state of a scanner is the depth and whether it is in a string. *)
Fixpoint cut (depth : nat) (quoted : bool) (s : str) : option (str * str) :=
  match s with
  | [] => None
  | c :: r =>
      let go d q := option_map (fun p => (c :: fst p, snd p)) (cut d q r) in
      if quoted then go depth (negb (N.eqb c 34))
      else if N.eqb c 34 then go depth true
      else if N.eqb c 40 then go (S depth) false
      else if N.eqb c 41 then match depth with 0 => Some ([], s) | S d => go d false end
      else if N.eqb c 44 then match depth with 0 => Some ([], s) | S _ => go depth false end
      else go depth false
  end.
Definition add (x : str) (o : option (str * str)) : option (str * str) := option_map (fun p => (x ++ fst p, snd p)) o.
Lemma add_add x y o : add x (add y o) = add (x ++ y) o.
Proof. destruct o as [[a b]|]; cbn; [|reflexivity]. rewrite app_assoc. reflexivity. Qed.
Lemma add_cons c o : option_map (fun p => (c :: fst p, snd p)) o = add [c] o.
Proof. reflexivity. Qed.

Lemma cut_quoted d x t : ~ In 34%N x -> cut d true (x ++ 34%N :: t) = add (x ++ [34%N]) (cut d false t).
Proof.
  induction x as [|c x IH]; intros H.
  - cbn [app cut]. rewrite N.eqb_refl. apply add_cons.
  - cbn [app cut]. assert (Hc : c <> 34%N) by (intros ->; apply H; left; reflexivity).
    apply N.eqb_neq in Hc. rewrite Hc. cbn [negb]. rewrite IH by (intros Hi; apply H; right; exact Hi).
    rewrite add_cons, add_add. reflexivity.
Qed.
Lemma cut_closed b s : closed b s -> forall d t, (b = true -> d <> 0) -> cut d false (s ++ t) = add s (cut d false t).
Proof.
  intros H. change (@app N) with (@app chr) in *. induction H; intros d t Hd; change (@app N) with (@app chr).
  - cbn. destruct (cut d false t) as [[? ?]|]; reflexivity.
  - apply not_mark in H as (H1 & H2 & H3 & H4). apply N.eqb_neq in H1, H2, H3, H4.
    cbn [app cut]. rewrite H1, H2, H3, H4. rewrite (IHclosed d t Hd), add_cons, add_add. reflexivity.
  - destruct d as [|d]; [destruct (Hd H eq_refl)|]. cbn [app cut].
    change (44 =? 34)%N with false. change (44 =? 40)%N with false. change (44 =? 41)%N with false. change (44 =? 44)%N with true. cbv iota. rewrite (IHclosed (S d) t Hd), add_cons, add_add. reflexivity.
  - cbn [app cut]. change (34 =? 34)%N with true. cbv iota. change (@app N) with (@app chr). rewrite <- app_assoc. cbn [app]. change (@app N) with (@app chr).
    rewrite (cut_quoted d x _ H), (IHclosed d t Hd), add_cons, !add_add. f_equal. cbn. rewrite <- app_assoc. reflexivity.
  - cbn [app cut]. change (40 =? 34)%N with false. change (40 =? 40)%N with true. cbv iota. change (@app N) with (@app chr). rewrite <- app_assoc. cbn [app]. change (@app N) with (@app chr).
    rewrite (IHclosed1 (S d)) by discriminate. cbn [cut].
    change (41 =? 34)%N with false. change (41 =? 40)%N with false. change (41 =? 41)%N with true. cbv iota.
    rewrite (IHclosed2 d t Hd), !add_cons, !add_add. f_equal. cbn. rewrite <- app_assoc. reflexivity.
Qed.
Definition stops (t : str) : Prop := exists c r, t = c :: r /\ (c = 41%N \/ c = 44%N).
Lemma cut_stops t : stops t -> cut 0 false t = Some ([], t).
Proof. intros (c & r & -> & [->| ->]); reflexivity. Qed.
Lemma closed_unique s s' t t' : closed false s -> closed false s' -> stops t -> stops t' -> s ++ t = s' ++ t' -> s = s' /\ t = t'.
Proof.
  intros H H' Ht Ht' E. pose proof (cut_closed _ _ H 0 t) as C. pose proof (cut_closed _ _ H' 0 t') as C'.
  rewrite E, C' in C by discriminate. rewrite cut_stops, cut_stops in C by assumption. cbn in C. rewrite !app_nil_r in C.
  specialize (C ltac:(discriminate)). injection C as -> ->. split; reflexivity.
Qed.

Lemma join_cons x y l : join (txt ", ") (x :: y :: l) = x ++ 44%N :: 32%N :: join (txt ", ") (y :: l).
Proof. reflexivity. Qed.
Lemma join_inj : forall l l' t t', Forall tidy_text l -> Forall tidy_text l' ->
  join (txt ", ") l ++ 41%N :: t = join (txt ", ") l' ++ 41%N :: t' -> l = l'.
Proof.
  assert (Hnil : forall l t t', Forall tidy_text l -> 41%N :: t = join (txt ", ") l ++ 41%N :: t' -> l = []).
  { intros [|x l] t t' H E; [reflexivity|]. apply Forall_inv in H as [Hx Hc]. exfalso.
    assert (H41 : exists r, x = 41%N :: r).
    { destruct x as [|c x]; [destruct (Hx eq_refl)|]. exists x.
      destruct l as [|y l]; cbn in E; injection E as -> _; reflexivity. }
    destruct H41 as [r ->]. inversion Hc as [|c s Hm| | |]; subst. apply Hm. right. right. left. reflexivity. }
  induction l as [|x l IH]; intros l' t t' H H' E.
  - symmetry. exact (Hnil l' t t' H' E).
  - destruct l' as [|x' l']; [exact (Hnil (x :: l) t' t H (eq_sym E))|].
    pose proof (Forall_inv H) as [_ Hx]. pose proof (Forall_inv H') as [_ Hx']. apply Forall_inv_tail in H, H'.
    assert (S1 : forall u, stops (41%N :: u)) by (intros u; exists 41%N, u; auto).
    assert (S2 : forall u, stops (44%N :: u)) by (intros u; exists 44%N, u; auto).
    destruct l as [|y l], l' as [|y' l'].
    + cbn [join] in E. apply closed_unique in E as [-> _]; auto.
    + rewrite join_cons, <- app_assoc in E. cbn [join app] in E. apply closed_unique in E as [_ E]; auto. discriminate.
    + rewrite join_cons, <- app_assoc in E. cbn [join app] in E. apply closed_unique in E as [_ E]; auto. discriminate.
    + rewrite !join_cons, <- !app_assoc in E. cbn [app] in E. apply closed_unique in E as [-> E]; auto.
      injection E as E. apply (IH _ _ _ H H') in E. congruence.
Qed.

Lemma closed_app b s t : closed b s -> closed b t -> closed b (s ++ t).
Proof.
  intros H Ht. induction H; cbn [app].
  - exact Ht.
  - apply closed_char; [exact H|exact (IHclosed Ht)].
  - apply closed_comma; [exact H|exact (IHclosed Ht)].
  - rewrite <- app_assoc. apply closed_quote; [exact H|exact (IHclosed Ht)].
  - rewrite <- app_assoc. apply closed_paren; [exact H|exact (IHclosed2 Ht)].
Qed.
Lemma closed_inside s : closed false s -> closed true s.
Proof.
  intros H. induction H; [apply closed_nil|apply closed_char; assumption|apply closed_comma; [reflexivity|assumption]|apply closed_quote; assumption|apply closed_paren; assumption].
Qed.
Lemma closed_word b s : Forall (fun c => ~ mark c) s -> closed b s.
Proof. intros H. induction H; [apply closed_nil|apply closed_char; assumption]. Qed.
Lemma closed_join l : Forall tidy_text l -> closed true (join (txt ", ") l).
Proof.
  induction l as [|x l IH]; intros H; [constructor|]. pose proof (Forall_inv H) as [_ Hx]. apply Forall_inv_tail in H. apply closed_inside in Hx.
  destruct l as [|y l]; [exact Hx|]. rewrite join_cons. apply closed_app; [exact Hx|]. apply closed_comma; [reflexivity|].
  apply closed_char; [unfold mark; intuition discriminate|apply IH; exact H].
Qed.

Lemma fold_tidy O args : fold_right (fun a r => tidy O a /\ r) True args <-> Forall (tidy O) args.
Proof.
  induction args as [|a args IH]; cbn [fold_right]; [split; auto|]. rewrite IH. split.
  - intros [H1 H2]. constructor; assumption.
  - intros H. split; [exact (Forall_inv H)|exact (Forall_inv_tail H)].
Qed.
Lemma display_call O id n args raw : expr_display O (ECall id n args raw) = n ++ 40%N :: join (txt ", ") (arg_texts O args raw) ++ [41%N].
Proof.
  cbn [expr_display]. unfold arg_texts. f_equal.
  destruct args as [|a [|b args]]; destruct raw as [[rid ts]|]; reflexivity.
Qed.
Lemma tidy_display O e : tidy O e -> tidy_text (expr_display O e).
Proof.
  induction e as [id v|id n args raw IH] using expr_ind'; intros H; [exact H|].
  destruct H as [Hn H]. rewrite display_call. split; [destruct n; discriminate|].
  apply closed_app; [apply closed_word; exact Hn|]. apply (closed_paren _ _ []); [|apply closed_nil]. apply closed_join.
  assert (Hall : Forall (tidy O) args -> Forall tidy_text (map (expr_display O) args)).
  { intros Ha. apply Forall_map. rewrite Forall_forall in *. intros a Hi. exact (IH a Hi (Ha a Hi)). }
  unfold arg_texts. destruct args as [|a [|b args]]; destruct raw as [[rid ts]|];
    try (apply Hall, fold_tidy; exact H). constructor; [exact H|constructor].
Qed.
Lemma tidy_args O id n args raw : tidy O (ECall id n args raw) -> Forall (fun c => ~ mark c) n /\ Forall tidy_text (arg_texts O args raw).
Proof.
  intros [Hn H]. split; [exact Hn|].
  assert (Hall : Forall (tidy O) args -> Forall tidy_text (map (expr_display O) args)).
  { intros Ha. apply Forall_map. rewrite Forall_forall in *. intros a Hi. apply tidy_display, Ha, Hi. }
  unfold arg_texts. destruct args as [|a [|b args]]; destruct raw as [[rid ts]|];
    try (apply Hall, fold_tidy; exact H). constructor; [exact H|constructor].
Qed.
Lemma word_unique : forall n n' t t', Forall (fun c => ~ mark c) n -> Forall (fun c => ~ mark c) n' ->
  n ++ 40%N :: t = n' ++ 40%N :: t' -> n = n' /\ t = t'.
Proof.
  assert (H40 : ~ ~ mark 40%N) by (unfold mark; intuition).
  induction n as [|c n IH]; intros [|c' n'] t t' H H' E; cbn in E.
  - injection E as ->. split; reflexivity.
  - injection E as <- _. apply Forall_inv in H'. contradiction.
  - injection E as -> _. apply Forall_inv in H. contradiction.
  - injection E as -> E. apply (IH _ _ _ (Forall_inv_tail H) (Forall_inv_tail H')) in E as [-> ->]. split; reflexivity.
Qed.
Lemma call_texts O id n args raw id' n' args' raw' :
  tidy O (ECall id n args raw) -> tidy O (ECall id' n' args' raw') ->
  expr_display O (ECall id n args raw) = expr_display O (ECall id' n' args' raw') ->
  n = n' /\ arg_texts O args raw = arg_texts O args' raw'.
Proof.
  intros H H' E. rewrite !display_call in E. apply tidy_args in H as [Hn Ha], H' as [Hn' Ha'].
  apply word_unique in E as [-> E]; auto. split; [reflexivity|]. exact (join_inj _ _ [] [] Ha Ha' E).
Qed.
