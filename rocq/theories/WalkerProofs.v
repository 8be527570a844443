(** The explicit-stack walker: termination, and refinement to the recursive map. *)
From Verif Require Import Base BaseFacts Token Types Values FormatString StreamWalker SubstituteIdents SpecSubst.

Lemma splice_nth {A} i (new ts : list A) x : nth_error ts i = Some x ->
  skipn (i + length new) (splice i new ts) = skipn (S i) ts.
Proof.
  intros H. assert (Hi : i < length ts) by (apply nth_error_Some; congruence).
  unfold splice. rewrite app_assoc, skipn_app.
  assert (Hl : length (firstn i ts ++ new) = i + length new) by (rewrite app_length, firstn_length; lia).
  rewrite Hl, skipn_all2 by lia. rewrite Nat.sub_diag. reflexivity.
Qed.
Lemma splice_length {A} i (new ts : list A) x : nth_error ts i = Some x ->
  length (splice i new ts) + 1 = length ts + length new.
Proof.
  intros H. assert (Hi : i < length ts) by (apply nth_error_Some; congruence).
  unfold splice. rewrite !app_length, firstn_length, skipn_length. lia.
Qed.
Lemma skipn_nth {A} i (ts : list A) x : nth_error ts i = Some x -> skipn i ts = x :: skipn (S i) ts.
Proof.
  revert ts; induction i as [|i IH]; intros [|y ts] H; try discriminate; cbn in *; [congruence|]. apply IH; exact H.
Qed.

(** ** Termination *)
Definition todo_parent (f : cursor) : nat := stream_steps (skipn (S (fst f)) (snd f)) + 1.
Definition measure (c : ctx) : nat :=
  match c with
  | [] => 0
  | (i, ts) :: rest => stream_steps (skipn i ts) + 1 + fold_right (fun f n => todo_parent f + n) 0 rest
  end.
Definition on_group (f : cursor) : Prop := exists d g, nth_error (snd f) (fst f) = Some (TGroup d g).
Definition valid (c : ctx) : Prop := match c with [] => False | _ :: rest => Forall on_group rest end.

Lemma steps_cons t ts : stream_steps (t :: ts) = tt_steps t + stream_steps ts.
Proof. reflexivity. Qed.
Lemma steps_pos t : 1 <= tt_steps t.
Proof. destruct t; cbn; lia. Qed.
Lemma skipn_min {A} n (l : list A) : skipn (Nat.min (length l) n) l = skipn n l.
Proof.
  destruct (Nat.le_gt_cases (length l) n) as [H|H]; [|rewrite Nat.min_r by lia; reflexivity].
  rewrite Nat.min_l by lia. rewrite skipn_all, skipn_all2 by lia. reflexivity.
Qed.

Section Termination.
Context {S : Type} (V : visitor S).
Hypothesis no_enter_replace : forall s c g a s', enter_group V s c g = Ok (a, s') -> forall ts, a <> Replace ts.

Lemma skip_or_replace_spec s i ts rest t a r : nth_error ts i = Some t ->
  skip_or_replace V s ((i, ts) :: rest) a = Ok r ->
  exists i' ts', snd r = (i', ts') :: rest /\ skipn i' ts' = skipn (Datatypes.S i) ts.
Proof.
  intros Hn H. assert (Hi : i < length ts) by (apply nth_error_Some; congruence).
  destruct a as [| |new]; cbn [skip_or_replace] in H.
  - injection H as <-. cbn [snd advance_current_group]. eexists _, _. split; [reflexivity|]. rewrite skipn_min. f_equal. lia.
  - injection H as <-. cbn [snd remove_current_token]. apply Nat.ltb_lt in Hi. rewrite Hi. eexists _, _. split; [reflexivity|].
    rewrite <- (splice_nth i [] ts t Hn). cbn [length]. rewrite Nat.add_0_r. reflexivity.
  - destruct new as [|n new].
    + destruct (after_replace V s _) as [s'| |] eqn:E; try discriminate. cbn [bind] in H. injection H as <-. cbn [snd replace_current_token].
      eexists _, _. split; [reflexivity|]. rewrite skipn_min. cbn [length Nat.sub]. apply (splice_nth i [] ts t Hn).
    + destruct (after_replace V s _) as [s'| |] eqn:E; try discriminate. cbn [bind] in H. injection H as <-.
      cbn [snd replace_current_token advance_current_group].
      eexists _, _. split; [reflexivity|]. rewrite skipn_min.
      pose proof (splice_length i (n :: new) ts t Hn) as Hl. cbn [length] in Hl.
      rewrite Nat.min_r by (cbn [length]; lia).
      rewrite <- (splice_nth i (n :: new) ts t Hn). f_equal. cbn [length]. lia.
Qed.

Lemma fold_group_ok g f : on_group f -> exists p, fold_group g (snd f) (fst f) = Ok p /\
  skipn (Datatypes.S (fst f)) p = skipn (Datatypes.S (fst f)) (snd f) /\ length p = length (snd f).
Proof.
  intros (d & h & H). unfold fold_group. rewrite H. eexists. split; [reflexivity|].
  pose proof (splice_nth (fst f) [TGroup d g] _ _ H) as Hs. pose proof (splice_length (fst f) [TGroup d g] _ _ H) as Hl. cbn [length] in *.
  split; [|lia]. etransitivity; [|exact Hs]. f_equal. lia.
Qed.

Lemma step_decreases s c s' c' : valid c -> walk_step V s c = Ok (inl (s', c')) -> valid c' /\ measure c' < measure c.
Proof.
  intros Hv H. destruct c as [|[i ts] rest]; [contradiction|]. cbn [valid] in Hv. cbn [walk_step] in H.
  destruct (nth_error ts i) as [t|] eqn:Hn.
  - pose proof (skipn_nth i ts t Hn) as Hsk.
    assert (Hleaf : forall s1 a, (let! r := skip_or_replace V s1 ((i, ts) :: rest) a in Ok (@inl (S * ctx) (S * list tt) r)) = Ok (inl (s', c')) ->
                     valid c' /\ measure c' < measure ((i, ts) :: rest)).
    { intros s1 a Ha. destruct (skip_or_replace V s1 ((i, ts) :: rest) a) as [r| |] eqn:E; try discriminate. cbn [bind] in Ha. injection Ha as ->.
      destruct (skip_or_replace_spec _ _ _ _ _ _ _ Hn E) as (i' & ts' & Hc & Hs). cbn in Hc. subst c'. split; [exact Hv|].
      cbn [measure]. rewrite Hs, Hsk, steps_cons. pose proof (steps_pos t). lia. }
    destruct t as [x|p j|l|d g].
    + destruct (visit_ident V s _ x) as [[a s1]| |]; try discriminate. cbn [bind] in H. eapply Hleaf; exact H.
    + destruct (visit_punct V s _ p j) as [[a s1]| |]; try discriminate. cbn [bind] in H. eapply Hleaf; exact H.
    + destruct (visit_literal V s _ l) as [[a s1]| |]; try discriminate. cbn [bind] in H. eapply Hleaf; exact H.
    + destruct (visit_group V s _ d g) as [[a s1]| |]; try discriminate. cbn [bind] in H.
      destruct a as [| |new]; [|eapply Hleaf; exact H|eapply Hleaf; exact H].
      unfold push_group in H. destruct (enter_group V s1 _ g) as [[a2 s2]| |] eqn:Ee; try discriminate. cbn [bind] in H.
      destruct a2 as [| |new]; [| |exfalso; eapply no_enter_replace; [exact Ee|reflexivity]].
      * injection H as <- <-. split; [constructor; [exists d, g; exact Hn|exact Hv]|].
        cbn [measure fold_right]. unfold todo_parent at 1. cbn [fst snd]. rewrite Hsk, steps_cons. cbn [tt_steps skipn].
        fold (stream_steps g). lia.
      * cbn [pop_remove] in H. assert (Hi : i < length ts) by (apply nth_error_Some; congruence).
        apply Nat.ltb_lt in Hi. rewrite Hi in H. cbn [bind] in H. injection H as <- <-. split; [exact Hv|].
        cbn [measure]. pose proof (splice_nth i [] ts _ Hn) as Hs. cbn [length] in Hs. rewrite Nat.add_0_r in Hs.
        rewrite Hs, Hsk, steps_cons. pose proof (steps_pos (TGroup d g)). lia.
  - destruct (exit_group V s _ ts) as [[a s1]| |]; try discriminate. cbn [bind] in H.
    destruct rest as [|[i' p] rest].
    + destruct a as [| |new]; try discriminate. destruct (after_replace V s1 _); discriminate.
    + inversion Hv as [|? ? Hg Hv']; subst.
      assert (Hfold : forall g, exists p', fold_group g p i' = Ok p' /\ skipn (Datatypes.S i') p' = skipn (Datatypes.S i') p /\ length p' = length p)
        by (intros g; apply (fold_group_ok g (i', p) Hg)).
      destruct a as [| |new].
      * cbn [pop_fold] in H. destruct (Hfold ts) as (p' & Hp & Hs & _). rewrite Hp in H. cbn [bind advance_current_group] in H. injection H as <- <-.
        split; [exact Hv'|]. cbn [measure fold_right]. unfold todo_parent at 2. cbn [fst snd]. rewrite skipn_min, (Nat.add_1_r i'), Hs. lia.
      * cbn [pop_remove] in H. destruct Hg as (d & g & Hg). cbn in Hg. assert (Hi : i' < length p) by (apply nth_error_Some; congruence).
        apply Nat.ltb_lt in Hi. rewrite Hi in H. cbn [bind] in H. injection H as <- <-. split; [exact Hv'|].
        cbn [measure fold_right]. unfold todo_parent at 2. cbn [fst snd].
        pose proof (splice_nth i' [] p _ Hg) as Hs. cbn [length] in Hs. rewrite Nat.add_0_r in Hs. rewrite Hs. lia.
      * cbn [pop_fold replace_current_group] in H. destruct (Hfold new) as (p' & Hp & Hs & _). rewrite Hp in H. cbn [bind advance_current_group] in H.
        destruct (after_replace V s1 _) as [s2| |]; try discriminate. cbn [bind] in H. injection H as <- <-.
        split; [exact Hv'|]. cbn [measure fold_right]. unfold todo_parent at 2. cbn [fst snd]. rewrite skipn_min, (Nat.add_1_r i'), Hs. lia.
Qed.

Lemma walk_from_fuel fuel : forall fuel' s c, valid c -> measure c <= fuel -> measure c <= fuel' ->
  walk_from V fuel s c = walk_from V fuel' s c.
Proof.
  induction fuel as [|fuel IH]; intros fuel' s c Hv H H'.
  - destruct c as [|[i ts] rest]; [contradiction|]. cbn in H. lia.
  - destruct fuel' as [|fuel']; [destruct c as [|[i ts] rest]; [contradiction|]; cbn in H'; lia|].
    cbn [walk_from]. destruct (walk_step V s c) as [[[s' c']|out]| |] eqn:E; cbn [bind]; try reflexivity.
    destruct (step_decreases _ _ _ _ Hv E) as [Hv' Hm]. apply IH; [exact Hv'|lia|lia].
Qed.

(** More fuel than [1 + stream_steps] changes nothing. *)
Lemma walk_fuel fuel s ts : Datatypes.S (stream_steps ts) <= fuel -> walk V fuel s ts = walk V (Datatypes.S (stream_steps ts)) s ts.
Proof. intros H. apply walk_from_fuel; [exact (Forall_nil _)| |]; cbn; fold (stream_steps ts); lia. Qed.

(** If the visitor does not panic, the walk does not panic either (and so does not run
    out of fuel). *)
Hypothesis ident_safe : forall s c x p, visit_ident V s c x <> Panic p.
Hypothesis punct_safe : forall s c x j p, visit_punct V s c x j <> Panic p.
Hypothesis literal_safe : forall s c x p, visit_literal V s c x <> Panic p.
Hypothesis group_safe : forall s c d x p, visit_group V s c d x <> Panic p.
Hypothesis enter_safe : forall s c x p, enter_group V s c x <> Panic p.
Hypothesis exit_safe : forall s c x p, exit_group V s c x <> Panic p.
Hypothesis after_safe : forall s c p, after_replace V s c <> Panic p.

Lemma skip_or_replace_safe s c a p : skip_or_replace V s c a <> Panic p.
Proof.
  destruct a as [| |[|n new]]; cbn; try discriminate; intros H;
    match type of H with bind ?x _ = _ => destruct x as [s'| |] eqn:E end; cbn in H; try discriminate; eapply after_safe; exact E.
Qed.

Lemma step_safe s c p : valid c -> walk_step V s c <> Panic p.
Proof.
  intros Hv H. destruct c as [|[i ts] rest]; [contradiction|]. cbn [valid] in Hv. cbn [walk_step] in H.
  destruct (nth_error ts i) as [t|] eqn:Hn.
  - assert (Hleaf : forall s1 a, (let! r := skip_or_replace V s1 ((i, ts) :: rest) a in Ok (@inl (S * ctx) (S * list tt) r)) <> Panic p).
    { intros s1 a Ha. destruct (skip_or_replace V s1 ((i, ts) :: rest) a) as [r| |] eqn:E; cbn in Ha; try discriminate. eapply skip_or_replace_safe; exact E. }
    destruct t as [x|c j|l|d g].
    + destruct (visit_ident V s _ x) as [[a s1]| |] eqn:E; cbn [bind] in H; try discriminate; [eapply Hleaf; exact H|eapply ident_safe; exact E].
    + destruct (visit_punct V s _ c j) as [[a s1]| |] eqn:E; cbn [bind] in H; try discriminate; [eapply Hleaf; exact H|eapply punct_safe; exact E].
    + destruct (visit_literal V s _ l) as [[a s1]| |] eqn:E; cbn [bind] in H; try discriminate; [eapply Hleaf; exact H|eapply literal_safe; exact E].
    + destruct (visit_group V s _ d g) as [[a s1]| |] eqn:E; cbn [bind] in H; try discriminate; [|eapply group_safe; exact E].
      destruct a as [| |new]; [|eapply Hleaf; exact H|eapply Hleaf; exact H].
      unfold push_group in H. destruct (enter_group V s1 _ g) as [[a2 s2]| |] eqn:Ee; cbn [bind] in H; try discriminate; [|eapply enter_safe; exact Ee].
      destruct a2 as [| |new]; [discriminate| |exfalso; eapply no_enter_replace; [exact Ee|reflexivity]].
      cbn [pop_remove] in H. assert (Hi : i < length ts) by (apply nth_error_Some; congruence).
      apply Nat.ltb_lt in Hi. rewrite Hi in H. discriminate.
  - destruct (exit_group V s _ ts) as [[a s1]| |] eqn:E; cbn [bind] in H; try discriminate; [|eapply exit_safe; exact E].
    destruct rest as [|[i' q] rest].
    + destruct a as [| |new]; try discriminate. destruct (after_replace V s1 _) eqn:Ea in H; cbn in H; try discriminate. eapply after_safe; exact Ea.
    + inversion Hv as [|? ? Hg Hv']; subst.
      destruct a as [| |new].
      * cbn [pop_fold] in H. destruct (fold_group_ok ts (i', q) Hg) as (p' & Hp & _). cbn [fst snd] in Hp. rewrite Hp in H. discriminate.
      * cbn [pop_remove] in H. destruct Hg as (d & g & Hg). cbn in Hg. assert (Hi : i' < length q) by (apply nth_error_Some; congruence).
        apply Nat.ltb_lt in Hi. rewrite Hi in H. discriminate.
      * cbn [pop_fold replace_current_group] in H. destruct (fold_group_ok new (i', q) Hg) as (p' & Hp & _). cbn [fst snd] in Hp. rewrite Hp in H. cbn [bind] in H.
        destruct (after_replace V s1 _) eqn:Ea in H; cbn in H; try discriminate. eapply after_safe; exact Ea.
Qed.

Lemma walk_safe fuel s ts p : Datatypes.S (stream_steps ts) <= fuel -> walk V fuel s ts <> Panic p.
Proof.
  assert (H : forall fuel s c, valid c -> measure c <= fuel -> walk_from V fuel s c <> Panic p).
  { clear fuel s ts. induction fuel as [|fuel IH]; intros s c Hv Hm.
    - destruct c as [|[i ts] rest]; [contradiction|]. cbn in Hm. lia.
    - cbn [walk_from]. destruct (walk_step V s c) as [[[s' c']|out]| |q] eqn:E; cbn [bind]; try discriminate.
      + destruct (step_decreases _ _ _ _ Hv E) as [Hv' Hlt]. apply IH; [exact Hv'|lia].
      + intros _. eapply step_safe; [exact Hv|exact E]. }
  intros Hf. apply H; [exact (Forall_nil _)|]. cbn. fold (stream_steps ts). lia.
Qed.
End Termination.

Lemma steps_linear ts : stream_steps ts <= 2 * stream_size ts.
Proof.
  assert (H : forall t, tt_steps t <= 2 * tt_size t).
  { induction t as [x|c j|l|d g IH] using tt_ind'; cbn; try lia.
    cut (fold_right (fun t n => tt_steps t + n) 0 g <= 2 * fold_right (fun t n => tt_size t + n) 0 g); [lia|].
    induction IH as [|t g Ht IH' IH2]; cbn [fold_right]; lia. }
  induction ts as [|t ts IH]; cbn; [lia|]. specialize (H t). fold (stream_steps ts) (stream_size ts). lia.
Qed.

(** A visitor that replaces the contents of a group while entering it may loop. *)
Definition nesting_visitor : visitor unit := {|
  visit_ident := fun s _ _ => Ok (Continue, s);
  visit_punct := fun s _ _ _ => Ok (Continue, s);
  visit_literal := fun s _ _ => Ok (Continue, s);
  visit_group := fun s _ _ _ => Ok (Continue, s);
  enter_group := fun s _ _ => Ok (Replace [TGroup Paren []], s);
  exit_group := fun s _ _ => Ok (Continue, s);
  after_replace := fun s _ => Ok s;
|}.
Lemma nesting_loops fuel : walk nesting_visitor fuel Datatypes.tt [TGroup Paren []] = Panic PFuel.
Proof.
  assert (H : forall fuel c, walk_from nesting_visitor fuel Datatypes.tt ((0, [TGroup Paren []]) :: c) = Panic PFuel); [|apply H].
  clear fuel. induction fuel as [|fuel IH]; intros c; [reflexivity|]. cbn [walk_from]. cbn. apply IH.
Qed.

(** ** Substitution *)
Section Substitution.
Context (O : oracles) (lookup : str -> option value).
Context {N : Type} (parse : list tt -> option N).

Notation alias_toks := (tokens_of lookup).
Notation new_lit := (literal_of O lookup).
Notation V := (subst_visitor O lookup parse).
Notation subst := (replaced_stream alias_toks new_lit).
Notation stagesOf := (stages alias_toks new_lit).

Fixpoint check (last : option str) (l : list (option str * list tt)) : res (option str) :=
  match l with
  | [] => Ok last
  | (name, s) :: r =>
      let last' := match name with Some x => Some x | None => last end in
      match parse s with
      | Some _ => check last' r
      | None => match last' with Some x => Err (SubstitutionError x) | None => Panic PErrorData end
      end
  end.

Lemma check_app a : forall last b, check last (a ++ b) = let! last' := check last a in check last' b.
Proof.
  induction a as [|[name s] a IH]; intros last b; [reflexivity|]. cbn [app check].
  destruct (parse s); [apply IH|]. destruct name; [reflexivity|]. destruct last; reflexivity.
Qed.

(** Where the walker is: the enclosing groups with what is before and after them. *)
Definition hole := (list tt * delim * list tt * list tt)%type.
Definition cursor_of (h : hole) : cursor :=
  let '(b, d, g, a) := h in (length b, b ++ TGroup d g :: a).
Fixpoint plug (z : list hole) (ts : list tt) : list tt :=
  match z with
  | [] => ts
  | (b, d, _, a) :: z' => plug z' (b ++ TGroup d ts :: a)
  end.

Lemma splice_at {A} (b : list A) x a new : splice (length b) new (b ++ x :: a) = b ++ new ++ a.
Proof.
  unfold splice. rewrite firstn_app, Nat.sub_diag, firstn_O, app_nil_r, firstn_all.
  rewrite skipn_app, skipn_all2 by lia. replace (S (length b) - length b) with 1 by lia. reflexivity.
Qed.
Lemma nth_at {A} (b : list A) x a : nth_error (b ++ x :: a) (length b) = Some x.
Proof. rewrite nth_error_app2, Nat.sub_diag by lia. reflexivity. Qed.

Lemma fold_group_at b d g a new : fold_group new (b ++ TGroup d g :: a) (length b) = Ok (b ++ TGroup d new :: a).
Proof. unfold fold_group. rewrite nth_at, splice_at. reflexivity. Qed.

Lemma current_stream_plug i ts z : current_stream ((i, ts) :: map cursor_of z) = Ok (plug z ts).
Proof.
  unfold current_stream. revert ts; induction z as [|[[[b d] g] a] z IH]; intros ts; [reflexivity|].
  cbn [map fold_left cursor_of bind fst snd]. rewrite fold_group_at. apply IH.
Qed.

Lemma walk_from_step fuel s c : walk_from V (S fuel) s c =
  let! r := walk_step V s c in match r with inl (s', c') => walk_from V fuel s' c' | inr out => Ok out end.
Proof. reflexivity. Qed.

Definition in_hole (z : list hole) (done : list tt) (l : list (option str * list tt)) :=
  map (fun s => (fst s, plug z (done ++ snd s))) l.

(** One replacement at the cursor. *)
Lemma replace_step s done t todo z new name fuel :
  (let last' := match name with Some x => Some x | None => s end in
   let! r := skip_or_replace V last' ((length done, done ++ t :: todo) :: map cursor_of z) (Replace new) in
   match @inl (sstate * ctx) (sstate * list tt) r with inl (s', c') => walk_from V fuel s' c' | inr out => Ok out end) =
  let! s' := check s [(name, plug z (done ++ new ++ todo))] in
  walk_from V fuel s' ((length (done ++ new), (done ++ new) ++ todo) :: map cursor_of z).
Proof.
  assert (Hc : (match new with
     | [] => replace_current_token ((length done, done ++ t :: todo) :: map cursor_of z) []
     | _ => advance_current_group (replace_current_token ((length done, done ++ t :: todo) :: map cursor_of z) new)
     end) = (length (done ++ new), (done ++ new) ++ todo) :: map cursor_of z).
  { destruct new as [|n new]; cbn [replace_current_token advance_current_group]; rewrite splice_at.
    - rewrite app_nil_r. cbn [app length Nat.sub]. rewrite Nat.add_0_r, Nat.min_r by (rewrite app_length; lia). reflexivity.
    - rewrite <- app_assoc. f_equal. f_equal. rewrite !app_length. cbn [length]. lia. }
  cbn [check]. set (last' := match name with Some x => Some x | None => s end).
  assert (Ha : after_replace V last' ((length (done ++ new), (done ++ new) ++ todo) :: map cursor_of z) =
          match parse (plug z (done ++ new ++ todo)) with Some _ => Ok last' | None => match last' with Some x => Err (SubstitutionError x) | None => Panic PErrorData end end).
  { cbn [after_replace subst_visitor]. unfold subst_after. rewrite current_stream_plug. cbn [bind]. rewrite <- app_assoc. reflexivity. }
  destruct new as [|n new]; cbn [skip_or_replace]; rewrite Hc, Ha; destruct (parse _); cbn [bind]; try reflexivity; destruct last'; reflexivity.
Qed.

Lemma continue_step s done t todo z fuel :
  (let! r := skip_or_replace V s ((length done, done ++ t :: todo) :: map cursor_of z) Continue in
   match @inl (sstate * ctx) (sstate * list tt) r with inl (s', c') => walk_from V fuel s' c' | inr out => Ok out end) =
  walk_from V fuel s ((length (done ++ [t]), (done ++ [t]) ++ todo) :: map cursor_of z).
Proof.
  cbn [skip_or_replace bind advance_current_group]. rewrite <- app_assoc. cbn [app]. do 3 f_equal. rewrite !app_length. cbn [length]. lia.
Qed.

Lemma bind_assoc {A B C} (x : res A) (f : A -> res B) (g : B -> res C) :
  (let! y := (let! z := x in f z) in g y) = let! z := x in let! y := f z in g y.
Proof. destruct x; reflexivity. Qed.

Lemma bind_cong {A B} (x : res A) (f g : A -> res B) : (forall a, f a = g a) -> bind x f = bind x g.
Proof. intros H. destruct x; cbn; auto. Qed.

Lemma replaced_group d g : replaced alias_toks new_lit (TGroup d g) = [TGroup d (subst g)].
Proof. reflexivity. Qed.
Lemma stages1_group d g : stages1 alias_toks new_lit (TGroup d g) = map (fun s => (fst s, [TGroup d (snd s)])) (stagesOf g).
Proof. reflexivity. Qed.

Definition walks (todo : list tt) : Prop := forall s done z fuel,
  walk_from V (stream_steps todo + fuel) s ((length done, done ++ todo) :: map cursor_of z) =
  let! s' := check s (in_hole z done (stagesOf todo)) in
  walk_from V fuel s' ((length (done ++ subst todo), done ++ subst todo) :: map cursor_of z).

Lemma in_hole_cons z done t todo :
  in_hole z done (stagesOf (t :: todo)) =
  map (fun s => (fst s, plug z (done ++ snd s ++ todo))) (stages1 alias_toks new_lit t) ++
  in_hole z (done ++ replaced alias_toks new_lit t) (stagesOf todo).
Proof.
  unfold in_hole. cbn [stages]. rewrite map_app, !map_map. f_equal.
  apply map_ext. intros [n s]. cbn. rewrite <- app_assoc. reflexivity.
Qed.

Lemma walks_all todo : walks todo.
Proof.
  remember (stream_size todo) as n eqn:Hn. revert todo Hn.
  induction n as [n IHn] using lt_wf_ind. intros todo Hn.
  destruct todo as [|t todo]; intros s done z fuel.
  { cbn [stream_steps fold_right Nat.add stages in_hole map check bind replaced_stream flat_map]. rewrite !app_nil_r. reflexivity. }
  assert (Hsz : stream_size todo < n) by (subst n; cbn; assert (1 <= tt_size t) by (destruct t; cbn; lia); fold (stream_size todo); lia).
  pose proof (IHn _ Hsz todo eq_refl) as IH.
  rewrite steps_cons, in_hole_cons, check_app, bind_assoc.
  assert (Hsub : subst (t :: todo) = replaced alias_toks new_lit t ++ subst todo) by reflexivity.
  rewrite Hsub. clear Hsub.
  assert (Hrest : forall s', (let! s'' := check s' (in_hole z (done ++ replaced alias_toks new_lit t) (stagesOf todo)) in
      walk_from V fuel s'' ((length (done ++ replaced alias_toks new_lit t ++ subst todo), done ++ replaced alias_toks new_lit t ++ subst todo) :: map cursor_of z))
    = walk_from V (stream_steps todo + fuel) s' ((length (done ++ replaced alias_toks new_lit t), (done ++ replaced alias_toks new_lit t) ++ todo) :: map cursor_of z)).
  { intros s'. rewrite IH. rewrite <- app_assoc. reflexivity. }
  destruct t as [x|p j|l|d g].
  - cbn [tt_steps Nat.add]. rewrite walk_from_step. cbn [walk_step]. rewrite nth_at. cbn [visit_ident subst_visitor]. unfold subst_ident.
    cbn [replaced stages1] in *. destruct (lookup x) as [v|] eqn:El.
    + assert (Ha : alias_toks x = Some (to_tokens v)) by (unfold tokens_of; rewrite El; reflexivity). rewrite Ha in *. cbn [map fst snd bind].
      rewrite bind_assoc. cbn [bind]. pose proof (replace_step s done (TIdent x) todo z (to_tokens v) (Some x) (stream_steps todo + fuel)) as Hr.
      cbn zeta in Hr. rewrite Hr. apply bind_cong. intros s'. symmetry. apply Hrest.
    + assert (Ha : alias_toks x = None) by (unfold tokens_of; rewrite El; reflexivity). rewrite Ha in *. cbn [map fst snd bind].
      rewrite bind_assoc. cbn [bind]. etransitivity; [apply (continue_step s done (TIdent x) todo z (stream_steps todo + fuel))|]. symmetry. cbn [check bind]. apply Hrest.
  - cbn [tt_steps Nat.add]. rewrite walk_from_step. cbn [walk_step]. rewrite nth_at. cbn [visit_punct subst_visitor bind].
    rewrite bind_assoc. cbn [bind]. etransitivity; [apply (continue_step s done _ todo z (stream_steps todo + fuel))|]. symmetry. cbn [check stages1 map bind]. apply Hrest.
  - cbn [tt_steps Nat.add]. rewrite walk_from_step. cbn [walk_step]. rewrite nth_at. cbn [visit_literal subst_visitor]. unfold subst_literal.
    cbn [replaced stages1] in *. destruct (parse_lit_str O [TLit l]) as [[v sp]|] eqn:El.
    + assert (Ha : new_lit l = Some (LStr (format_string O lookup v) [])) by (unfold literal_of; rewrite El; reflexivity). rewrite Ha in *. cbn [map fst snd bind].
      rewrite bind_assoc. cbn [bind]. pose proof (replace_step s done (TLit l) todo z [TLit (LStr (format_string O lookup v) [])] None (stream_steps todo + fuel)) as Hr.
      cbn zeta in Hr. rewrite Hr. apply bind_cong. intros s'. symmetry. apply Hrest.
    + assert (Ha : new_lit l = None) by (unfold literal_of; rewrite El; reflexivity). rewrite Ha in *. cbn [map fst snd bind].
      rewrite bind_assoc. cbn [bind]. etransitivity; [apply (continue_step s done _ todo z (stream_steps todo + fuel))|]. symmetry. cbn [check bind]. apply Hrest.
  - assert (Hg : stream_size g < n) by (subst n; cbn; fold (stream_size g) (stream_size todo); lia).
    pose proof (IHn _ Hg g eq_refl) as IHg.
    cbn [tt_steps]. fold (stream_steps g).
    replace (2 + stream_steps g + stream_steps todo + fuel) with (S (stream_steps g + S (stream_steps todo + fuel))) by lia.
    rewrite walk_from_step. cbn [walk_step]. rewrite nth_at. cbn [visit_group enter_group subst_visitor bind]. unfold push_group.
    pose proof (IHg s [] ((done, d, g, todo) :: z) (S (stream_steps todo + fuel))) as H. cbn [app length map cursor_of] in H. etransitivity; [exact H|]. clear H.
    rewrite stages1_group, map_map. cbn [fst snd]. unfold in_hole at 1. cbn [plug app].
    apply bind_cong. intros s'. rewrite walk_from_step. cbn [walk_step].
    assert (He : nth_error (subst g) (length (subst g)) = None) by (apply nth_error_None; lia). rewrite He.
    cbn [exit_group subst_visitor bind]. cbn [pop_fold]. rewrite fold_group_at. cbn [bind advance_current_group].
    rewrite Hrest. rewrite replaced_group. rewrite <- app_assoc. cbn [app]. do 3 f_equal. rewrite !app_length. cbn [length]. lia.
Qed.

(** The whole walk. *)
Lemma walk_subst ts : walk V (S (stream_steps ts)) None ts =
  let! s := check None (stagesOf ts) in Ok (s, subst ts).
Proof.
  unfold walk. pose proof (walks_all ts None [] [] 1) as H. cbn [app length map] in H. rewrite Nat.add_1_r in H. etransitivity; [exact H|]. clear H.
  unfold in_hole. cbn [plug app].
  replace (map (fun s => (fst s, snd s)) (stagesOf ts)) with (stagesOf ts) by (rewrite <- (map_id (stagesOf ts)) at 1; apply map_ext; intros []; reflexivity).
  apply bind_cong. intros s'. rewrite walk_from_step. cbn [walk_step].
  assert (He : nth_error (subst ts) (length (subst ts)) = None) by (apply nth_error_None; lia). rewrite He. reflexivity.
Qed.

Lemma substitute_idents_spec ts : substitute_idents O lookup parse ts =
  let! _ := check None (stagesOf ts) in
  match parse (subst ts) with Some n => Ok n | None => Panic PUnreachable end.
Proof.
  unfold substitute_idents. rewrite walk_subst. destruct (check None (stagesOf ts)); reflexivity.
Qed.
End Substitution.
