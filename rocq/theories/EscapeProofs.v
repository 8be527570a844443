(** Proofs for C99: what can be written in a string. *)
From Coq Require Import String Lia.
From Verif Require Import Base BaseFacts Token Types Values FormatString SpecFormat SpecShown SpecEscape FormatProofs ShownProofs.
Open Scope list_scope.

Section Write.
Context (O : oracles) (lookup : str -> option value).
Notation run := (fold_left (format_step O lookup)).

Lemma run_escaped s : forall st out a, out_state st out a -> out_state (run (escaped a s) st) (out ++ s) (ends a s).
Proof.
  induction s as [|c s IH]; intros st out a Ho; [cbn; rewrite app_nil_r; exact Ho|]. cbn [escaped ends fold_left].
  replace (out ++ c :: s) with ((out ++ [c]) ++ s) by (rewrite <- app_assoc; reflexivity). destruct (N.eqb c 37) eqn:E.
  - apply N.eqb_eq in E as ->. rewrite fold_left_app. apply IH. destruct a.
    + exact (run_percents O lookup 1 _ _ Ho).
    + cbn [fold_left]. apply second_percent. apply open_placeholder. exact Ho.
  - cbn [fold_left]. apply IH. change (format_step O lookup st c) with (run [c] st). refine (run_text O lookup [c] _ _ a _ _ Ho); [discriminate|].
    intros [->|[]]. discriminate E.
Qed.
Lemma name_nameable x : nameable O x -> name_of (is_whitespace O) x = x /\ no_percent percent x.
Proof.
  intros (_ & H). split.
  - unfold name_of. induction H as [|c x (_ & H) _ IH]; [reflexivity|]. cbn [filter]. rewrite H. cbn [negb]. rewrite IH. reflexivity.
  - intros Hin. rewrite Forall_forall in H. destruct (H _ Hin) as [K _]. apply K. reflexivity.
Qed.
Lemma run_written ps : forall st out a, apart a ps -> (forall x, In x (values_of ps) -> nameable O x /\ lookup x <> None) ->
  out_state st out a -> exists a', out_state (run (written a ps) st) (out ++ says_all O lookup ps) a'.
Proof.
  induction ps as [|[s|x] ps IH]; intros st out a Hp Hv Ho; cbn [written says_all flat_map part_says].
  - rewrite app_nil_r. exists a. exact Ho.
  - rewrite fold_left_app, app_assoc. apply IH; [exact Hp|exact Hv|]. apply run_escaped. exact Ho.
  - destruct Hp as [-> Hp]. destruct (Hv x (or_introl eq_refl)) as [Hn Hl]. rewrite fold_left_app, app_assoc. apply IH; [exact Hp|intros y Hy; apply Hv; right; exact Hy|].
    unfold quoted. rewrite fold_left_app. cbn [fold_left]. destruct (name_nameable x Hn) as [E Hnp].
    pose proof (run_inside O lookup x _ _ [] Hnp (open_placeholder O lookup _ _ Ho)) as Hi.
    pose proof (close_placeholder O lookup _ _ _ (proj1 Hn : [] ++ x <> []) Hi) as Hc. cbn [app] in Hc. rewrite E in Hc. unfold vo in Hc.
    destruct (lookup x); [exact Hc|congruence].
Qed.
Lemma format_written ps : apart false ps -> (forall x, In x (values_of ps) -> nameable O x /\ lookup x <> None) ->
  format_string O lookup (written false ps) = says_all O lookup ps.
Proof.
  intros Hp Hv. destruct (run_written ps fstart [] false Hp Hv) as (a & H1 & H2 & H3 & H4 & H5); [repeat split|].
  unfold format_string. cbn zeta. rewrite H4, H1. reflexivity.
Qed.
Lemma format_escaped s : format_string O lookup (escaped false s) = s.
Proof.
  pose proof (format_written [Words s] I (fun x H => False_ind _ H)) as H. cbn in H. rewrite !app_nil_r in H. exact H.
Qed.
End Write.

Lemma fresh (l : list N) : exists x, ~ In x l.
Proof.
  exists (N.succ (fold_right N.max 0%N l)). intros H.
  assert (K : forall y, In y l -> (y <= fold_right N.max 0 l)%N).
  { clear H. induction l as [|z l IH]; intros y []; cbn [fold_right]; [subst; lia|]. specialize (IH y H). lia. }
  apply K in H. lia.
Qed.

Section Mark.
Context (m : N) (m_percent : m <> 37%N).

(** No mark comes after a mark or a percent sign. *)
Definition last_marked (a : bool) (w : str) : bool := fold_left (fun _ c => N.eqb c m || N.eqb c 37) w a.
Fixpoint marked (a : bool) (w : str) : Prop :=
  match w with
  | [] => True
  | c :: r => (c = m -> a = false) /\ marked (N.eqb c m || N.eqb c 37) r
  end.
Lemma marked_app u w : forall a, marked a (u ++ w) <-> marked a u /\ marked (last_marked a u) w.
Proof. induction u as [|c u IH]; intros a; cbn [app marked last_marked fold_left]; [tauto|]. rewrite IH. unfold last_marked. tauto. Qed.
Lemma unmarked u : forall a, ~ In m u -> marked a u.
Proof. induction u as [|c u IH]; intros a H; cbn [marked]; [exact I|]. split; [intros ->; destruct H; left; reflexivity|]. apply IH. intros K. apply H. right. exact K. Qed.
Lemma last_ends u : forall a, ~ In m u -> last_marked a u = ends a u.
Proof.
  induction u as [|c u IH]; intros a H; [reflexivity|]. unfold last_marked, ends in *. cbn [fold_left].
  replace (N.eqb c m) with false; [apply IH; intros K; apply H; right; exact K|].
  symmetry. apply N.eqb_neq. intros ->. apply H. left. reflexivity.
Qed.
Lemma text_ends u : forall a, u <> [] -> no_percent 37%N u -> ends a u = false.
Proof.
  induction u as [|c u IH]; intros a H K; [congruence|]. unfold ends. cbn [fold_left].
  assert (E : N.eqb c 37 = false) by (apply N.eqb_neq; intros ->; apply K; left; reflexivity). rewrite E.
  destruct u as [|d u]; [reflexivity|]. apply IH; [discriminate|]. intros L. apply K. right. exact L.
Qed.

Lemma marks_apart O lookup ps : (forall x, In x (values_of ps) -> exists v, lookup x = Some v /\ shown O v = [m]) ->
  (forall s, In (Words s) ps -> ~ In m s) -> forall a, marked a (says_all O lookup ps) -> apart a ps.
Proof.
  induction ps as [|[s|x] ps IH]; intros Hv Hs a Hm; cbn [apart says_all flat_map part_says] in *; [exact I| |].
  - apply marked_app in Hm as [_ Hm]. rewrite last_ends in Hm by (apply Hs; left; reflexivity). apply IH; [exact Hv|intros s' H; apply Hs; right; exact H|exact Hm].
  - destruct (Hv x (or_introl eq_refl)) as (v & E & Ev). rewrite E, Ev in Hm. cbn [app marked] in Hm. rewrite N.eqb_refl in Hm. destruct Hm as [H1 H2].
    split; [exact (H1 eq_refl)|]. apply IH; [intros y Hy; apply Hv; right; exact Hy|intros s' H; apply Hs; right; exact H|exact H2].
Qed.

Lemma in_repeat_percent k : ~ In m (repeat 37%N k).
Proof. intros H. apply repeat_spec in H. congruence. Qed.
Lemma meaning_marked is_space value_of tail ps : (forall x v, value_of x = Some v -> v = [m]) ->
  ~ In m (render 37%N ps tail) -> Forall (wf_piece 37%N) ps -> separated ps tail ->
  forall a, match ps with [] => True | p :: _ => is_text p = true \/ a = false end -> marked a (meaning 37%N is_space value_of ps tail).
Proof.
  intros Hv. induction ps as [|p ps IH]; intros Hm Hw Hs a Ha; unfold meaning; cbn [map concat].
  - apply unmarked. exact Hm.
  - rewrite <- app_assoc. fold (meaning 37%N is_space value_of ps tail). inversion Hw as [|? ? Hp Hps]; subst. cbn [separated] in Hs. destruct Hs as [Hn Hs].
    assert (Hm1 : ~ In m (render1 37%N p)) by (intros K; apply Hm; unfold render; cbn [map concat]; rewrite <- app_assoc; apply in_or_app; left; exact K).
    assert (Hm2 : ~ In m (render 37%N ps tail)) by (intros K; apply Hm; unfold render; cbn [map concat]; rewrite <- app_assoc; apply in_or_app; right; exact K).
    apply marked_app. split.
    + destruct p as [s|t k|n]; cbn [meaning1 render1] in *; [apply unmarked; exact Hm1| |apply unmarked; apply in_repeat_percent].
      destruct Ha as [Ha| ->]; [discriminate|]. apply marked_app. split; [|apply unmarked, in_repeat_percent].
      destruct (value_of _) as [v|] eqn:E.
      * rewrite (Hv _ _ E). cbn [marked]. auto.
      * apply unmarked. intros K. apply Hm1. destruct K as [K|K]; [left; exact K|right]. apply in_app_or in K as [K|K]; apply in_or_app; [left; exact K|right].
        destruct K as [K|[]]. left. exact K.
    + apply IH; [exact Hm2|exact Hps|exact Hs|]. destruct ps as [|q ps]; [exact I|]. destruct Hn as [Hn|Hn]; [right|left; exact Hn].
      destruct p as [s|t k|n]; try discriminate Hn. cbn [meaning1 render1] in *. destruct Hp. rewrite last_ends by exact Hm1. apply text_ends; assumption.
Qed.
End Mark.

Lemma unwritable O ps s : ~ apart false ps -> exists lookup, (forall x, In x (values_of ps) -> lookup x <> None) /\ format_string O lookup s <> says_all O lookup ps.
Proof.
  intros Hp. destruct (every_string_has_pieces s) as (qs & tail & -> & Hw).
  destruct (fresh (37%N :: render percent qs tail ++ flat_map (fun p => match p with Words x => x | Value_of _ => [] end) ps)) as (m & Hm).
  pose (lookup := fun x => if existsb (str_eqb x) (values_of ps) then Some (VLitStr [m] []) else None). exists lookup.
  assert (Hl : forall x, In x (values_of ps) -> lookup x = Some (VLitStr [m] [])).
  { intros x Hx. unfold lookup. replace (existsb (str_eqb x) (values_of ps)) with true; [reflexivity|]. symmetry. apply existsb_exists. exists x. split; [exact Hx|apply str_eqb_refl]. }
  split; [intros x Hx; rewrite (Hl x Hx); discriminate|]. intros E. apply Hp.
  assert (H37 : m <> 37%N) by (intros ->; apply Hm; left; reflexivity).
  apply (marks_apart m O lookup ps); [intros x Hx; exists (VLitStr [m] []); split; [exact (Hl x Hx)|reflexivity]| |].
  - intros s Hs K. apply Hm. right. apply in_or_app. right. apply in_flat_map. exists (Words s). split; [exact Hs|exact K].
  - rewrite <- E, format_meaning by exact Hw. destruct Hw as (H1 & H2 & _). apply meaning_marked; [exact H37| | |exact H1|exact H2|destruct qs; auto].
    + intros x v K. unfold vo in K. destruct (lookup x) as [w|] eqn:F; [|discriminate]. unfold lookup in F. destruct (existsb _ _); [|discriminate].
      injection F as <-. injection K as <-. reflexivity.
    + intros K. apply Hm. right. apply in_or_app. left. exact K.
Qed.

Lemma format_nested O lookups s :
  fold_left (fun t lookup => format_string O lookup t) lookups (Nat.iter (List.length lookups) (escaped false) s) = s.
Proof.
  induction lookups as [|l ls IH]; [reflexivity|]. cbn [List.length fold_left Nat.iter nat_rect]. rewrite format_escaped. exact IH.
Qed.
