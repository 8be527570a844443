(** The walker with spans: refinement to the recursive map, and to the walker without. *)
From Verif Require Import Base BaseFacts Token Types Values FormatString StreamWalker SubstituteIdents SpecSubst WalkerProofs
  Failures SpanTokens SpanWalker SpecSpans.

Lemma sbind_assoc {A B C} (x : sres A) (f : A -> sres B) (g : B -> sres C) :
  (let? y := (let? z := x in f z) in g y) = let? z := x in let? y := f z in g y.
Proof. destruct x; reflexivity. Qed.
Lemma sbind_cong {A B} (x : sres A) (f g : A -> sres B) : (forall a, f a = g a) -> sbind x f = sbind x g.
Proof. intros H. destruct x; cbn; auto. Qed.

Section Walk.
Context (O : oracles) (lookup : str -> option value) (salias : str -> option (list stt)).
Context {N : Type} (parse : list stt -> option N) (why : list stt -> str).

(** What the walker remembers of a place. *)
Definition note (p : str * span) : str * str * span := (fst p, alias_text O salias (fst p), snd p).
Definition report (s : list stt) (x : str) : failure := FSubstitution x (alias_text O salias x) (why s).

Notation new_lit := (literal_of O lookup).
Notation subst := (sreplaced_stream salias new_lit).
Notation stagesOf := (sstages salias new_lit).
Notation walkf := (swalk_from O lookup salias parse why).

Fixpoint scheck (last : option (str * span)) (l : list (option (str * span) * list stt)) : sres (option (str * span)) :=
  match l with
  | [] => SOk last
  | (name, s) :: r =>
      let last' := match name with Some x => Some x | None => last end in
      match parse s with
      | Some _ => scheck last' r
      | None => match last' with Some (x, p) => SErr (report s x) p | None => SPanic PErrorData end
      end
  end.
Lemma scheck_app a : forall last b, scheck last (a ++ b) = let? last' := scheck last a in scheck last' b.
Proof.
  induction a as [|[name s] a IH]; intros last b; [reflexivity|]. cbn [app scheck].
  destruct (parse s); [apply IH|]. destruct name as [[]|]; [reflexivity|]. destruct last as [[]|]; reflexivity.
Qed.

Definition shole := (list stt * delim * list stt * delim_span * list stt)%type.
Definition scursor_of (h : shole) : scursor :=
  let '(b, d, g, s, a) := h in (length b, b ++ SGroup d g s :: a).
Fixpoint splug (z : list shole) (ts : list stt) : list stt :=
  match z with
  | [] => ts
  | (b, d, _, s, a) :: z' => splug z' (b ++ SGroup d ts (single (ds_entire s)) :: a)
  end.
Lemma sfold_group_at b d g s a new :
  sfold_group new (b ++ SGroup d g s :: a) (length b) = SOk (b ++ SGroup d new (single (ds_entire s)) :: a).
Proof. unfold sfold_group. rewrite nth_at, splice_at. reflexivity. Qed.
Lemma scurrent_stream_plug i ts z : scurrent_stream ((i, ts) :: map scursor_of z) = SOk (splug z ts).
Proof.
  unfold scurrent_stream. revert ts; induction z as [|[[[[b d] g] s] a] z IH]; intros ts; [reflexivity|].
  cbn [map fold_left scursor_of sbind fst snd]. rewrite sfold_group_at. apply IH.
Qed.
Lemma swalk_from_step fuel st c : walkf (S fuel) st c =
  let? r := swalk_step O lookup salias parse why st c in match r with inl (s', c') => walkf fuel s' c' | inr out => SOk out end.
Proof. reflexivity. Qed.

Definition sin_hole (z : list shole) (done : list stt) (l : list (option (str * span) * list stt)) :=
  map (fun s => (fst s, splug z (done ++ snd s))) l.

Lemma sreplace_step s done t todo z new name fuel :
  (let last' := match name with Some x => Some x | None => s end in
   let? r := sapply_action parse why (option_map note last') ((length done, done ++ t :: todo) :: map scursor_of z) (SReplace new) in
   match @inl (spstate * sctx) (list stt) r with inl (s', c') => walkf fuel s' c' | inr out => SOk out end) =
  let? s' := scheck s [(name, splug z (done ++ new ++ todo))] in
  walkf fuel (option_map note s') ((length (done ++ new), (done ++ new) ++ todo) :: map scursor_of z).
Proof.
  assert (Hc : (match new with
     | [] => sreplace_current_token ((length done, done ++ t :: todo) :: map scursor_of z) []
     | _ => sadvance_current_group (sreplace_current_token ((length done, done ++ t :: todo) :: map scursor_of z) new)
     end) = (length (done ++ new), (done ++ new) ++ todo) :: map scursor_of z).
  { destruct new as [|n new]; cbn [sreplace_current_token sadvance_current_group]; rewrite splice_at.
    - rewrite app_nil_r. cbn [app length Nat.sub]. rewrite Nat.add_0_r, Nat.min_r by (rewrite app_length; lia). reflexivity.
    - rewrite <- app_assoc. f_equal. f_equal. rewrite !app_length. cbn [length]. lia. }
  cbn [scheck]. set (last' := match name with Some x => Some x | None => s end).
  assert (Ha : ssubst_after parse why (option_map note last') ((length (done ++ new), (done ++ new) ++ todo) :: map scursor_of z) =
          match parse (splug z (done ++ new ++ todo)) with Some _ => SOk (option_map note last') | None => match last' with Some (x, p) => SErr (report (splug z (done ++ new ++ todo)) x) p | None => SPanic PErrorData end end).
  { unfold ssubst_after. rewrite scurrent_stream_plug. cbn [sbind]. rewrite <- app_assoc. destruct (parse _); [reflexivity|]. destruct last' as [[]|]; reflexivity. }
  destruct new as [|n new]; cbn [sapply_action]; rewrite Hc, Ha; destruct (parse _); cbn [sbind]; try reflexivity; destruct last' as [[]|]; reflexivity.
Qed.
Lemma scontinue_step s done t todo z fuel :
  (let? r := sapply_action parse why s ((length done, done ++ t :: todo) :: map scursor_of z) SContinue in
   match @inl (spstate * sctx) (list stt) r with inl (s', c') => walkf fuel s' c' | inr out => SOk out end) =
  walkf fuel s ((length (done ++ [t]), (done ++ [t]) ++ todo) :: map scursor_of z).
Proof.
  cbn [sapply_action sbind sadvance_current_group]. rewrite <- app_assoc. cbn [app]. do 3 f_equal. rewrite !app_length. cbn [length]. lia.
Qed.
Lemma sreplaced_group d g s : sreplaced salias new_lit (SGroup d g s) = [SGroup d (subst g) (single (ds_entire s))].
Proof. reflexivity. Qed.
Lemma sstages1_group d g s : sstages1 salias new_lit (SGroup d g s) =
  map (fun e => (fst e, [SGroup d (snd e) (single (ds_entire s))])) (stagesOf g).
Proof. reflexivity. Qed.

Notation ssteps ts := (stream_steps (map erase ts)).
Notation ssize ts := (stream_size (map erase ts)).

Definition swalks (todo : list stt) : Prop := forall s done z fuel,
  walkf (ssteps todo + fuel) (option_map note s) ((length done, done ++ todo) :: map scursor_of z) =
  let? s' := scheck s (sin_hole z done (stagesOf todo)) in
  walkf fuel (option_map note s') ((length (done ++ subst todo), done ++ subst todo) :: map scursor_of z).

Lemma sin_hole_cons z done t todo :
  sin_hole z done (stagesOf (t :: todo)) =
  map (fun s => (fst s, splug z (done ++ snd s ++ todo))) (sstages1 salias new_lit t) ++
  sin_hole z (done ++ sreplaced salias new_lit t) (stagesOf todo).
Proof.
  unfold sin_hole. cbn [sstages]. rewrite map_app, !map_map. f_equal.
  apply map_ext. intros [n s]. cbn. rewrite <- app_assoc. reflexivity.
Qed.

Lemma swalks_all todo : swalks todo.
Proof.
  remember (ssize todo) as n eqn:Hn. revert todo Hn.
  induction n as [n IHn] using lt_wf_ind. intros todo Hn.
  destruct todo as [|t todo]; intros s done z fuel.
  { cbn [map stream_steps fold_right Nat.add sstages sin_hole scheck sbind sreplaced_stream flat_map]. rewrite !app_nil_r. reflexivity. }
  assert (Hsz : ssize todo < n) by (subst n; cbn; assert (1 <= tt_size (erase t)) by (destruct t; cbn; lia); fold (ssize todo); lia).
  pose proof (IHn _ Hsz todo eq_refl) as IH.
  cbn [map]. rewrite steps_cons, sin_hole_cons, scheck_app, sbind_assoc.
  assert (Hsub : subst (t :: todo) = sreplaced salias new_lit t ++ subst todo) by reflexivity.
  rewrite Hsub. clear Hsub.
  assert (Hrest : forall s', (let? s'' := scheck s' (sin_hole z (done ++ sreplaced salias new_lit t) (stagesOf todo)) in
      walkf fuel (option_map note s'') ((length (done ++ sreplaced salias new_lit t ++ subst todo), done ++ sreplaced salias new_lit t ++ subst todo) :: map scursor_of z))
    = walkf (ssteps todo + fuel) (option_map note s') ((length (done ++ sreplaced salias new_lit t), (done ++ sreplaced salias new_lit t) ++ todo) :: map scursor_of z)).
  { intros s'. rewrite IH. rewrite <- app_assoc. reflexivity. }
  destruct t as [x p|c j p|l p|d g p].
  - cbn [erase tt_steps Nat.add]. rewrite swalk_from_step. cbn [swalk_step]. rewrite nth_at. unfold ssubst_ident.
    cbn [sreplaced sstages1] in *. destruct (salias x) as [v|] eqn:El.
    + cbn [map fst snd].
      assert (En : Some (x, to_string O (map erase v), p) = option_map note (Some (x, p))) by (unfold note, alias_text; cbn; rewrite El; reflexivity). rewrite En.
      rewrite sbind_assoc. cbn [sbind]. pose proof (sreplace_step s done (SIdent x p) todo z v (Some (x, p)) (ssteps todo + fuel)) as Hr.
      cbn zeta in Hr. rewrite Hr. apply sbind_cong. intros s'. symmetry. apply Hrest.
    + rewrite sbind_assoc. cbn [sbind]. etransitivity; [apply (scontinue_step (option_map note s) done (SIdent x p) todo z (ssteps todo + fuel))|]. symmetry. cbn [map scheck sbind]. apply Hrest.
  - cbn [erase tt_steps Nat.add]. rewrite swalk_from_step. cbn [swalk_step]. rewrite nth_at.
    rewrite sbind_assoc. cbn [sbind]. etransitivity; [apply (scontinue_step (option_map note s) done _ todo z (ssteps todo + fuel))|]. symmetry. cbn [scheck sstages1 map sbind]. apply Hrest.
  - cbn [erase tt_steps Nat.add]. rewrite swalk_from_step. cbn [swalk_step]. rewrite nth_at. unfold ssubst_literal.
    cbn [sreplaced sstages1] in *. destruct (parse_lit_str O [TLit l]) as [[v sp]|] eqn:El.
    + assert (Ha : new_lit l = Some (LStr (format_string O lookup v) [])) by (unfold literal_of; rewrite El; reflexivity). rewrite Ha in *. cbn [map fst snd].
      rewrite sbind_assoc. cbn [sbind]. pose proof (sreplace_step s done (SLit l p) todo z [SLit (LStr (format_string O lookup v) []) p] None (ssteps todo + fuel)) as Hr.
      cbn zeta in Hr. rewrite Hr. apply sbind_cong. intros s'. symmetry. apply Hrest.
    + assert (Ha : new_lit l = None) by (unfold literal_of; rewrite El; reflexivity). rewrite Ha in *. cbn [map fst snd].
      rewrite sbind_assoc. cbn [sbind]. etransitivity; [apply (scontinue_step (option_map note s) done _ todo z (ssteps todo + fuel))|]. symmetry. cbn [scheck sbind]. apply Hrest.
  - assert (Hg : ssize g < n) by (subst n; cbn; fold (ssize g) (ssize todo); lia).
    pose proof (IHn _ Hg g eq_refl) as IHg.
    cbn [erase tt_steps]. fold (ssteps g).
    replace (2 + ssteps g + ssteps todo + fuel) with (S (ssteps g + S (ssteps todo + fuel))) by lia.
    rewrite swalk_from_step. cbn [swalk_step]. rewrite nth_at. cbn [sbind].
    pose proof (IHg s [] ((done, d, g, p, todo) :: z) (S (ssteps todo + fuel))) as H. cbn [app length map scursor_of] in H. etransitivity; [exact H|]. clear H.
    rewrite sstages1_group, map_map. cbn [fst snd]. unfold sin_hole at 1. cbn [splug app].
    apply sbind_cong. intros s'. rewrite swalk_from_step. cbn [swalk_step].
    assert (He : nth_error (subst g) (length (subst g)) = None) by (apply nth_error_None; lia). rewrite He.
    cbn [sbind spop_fold]. rewrite sfold_group_at. cbn [sbind sadvance_current_group].
    rewrite Hrest. rewrite sreplaced_group. rewrite <- app_assoc. cbn [app]. do 3 f_equal. rewrite !app_length. cbn [length]. lia.
Qed.

Lemma ssubstitute_idents_spec ts : ssubstitute_idents O lookup salias parse why ts =
  let? _ := scheck None (stagesOf ts) in
  match parse (subst ts) with Some n => SOk n | None => SPanic PUnreachable end.
Proof.
  unfold ssubstitute_idents. pose proof (swalks_all ts None [] [] 1) as H. cbn [app length map] in H. rewrite Nat.add_1_r in H.
  etransitivity; [apply (f_equal (fun r => sbind r _)); exact H|]. clear H. rewrite sbind_assoc.
  unfold sin_hole. cbn [splug app].
  replace (map (fun s => (fst s, snd s)) (stagesOf ts)) with (stagesOf ts) by (rewrite <- (map_id (stagesOf ts)) at 1; apply map_ext; intros []; reflexivity).
  apply sbind_cong. intros s'. rewrite swalk_from_step. cbn [swalk_step].
  assert (He : nth_error (subst ts) (length (subst ts)) = None) by (apply nth_error_None; lia). rewrite He. reflexivity.
Qed.

(** Success. *)
Lemma scheck_ok l : forall last r, scheck last l = SOk r -> forall e, In e l -> parse (snd e) <> None.
Proof.
  induction l as [|[name s] l IH]; intros last r H e; [intros []|]. intros [<-|Hi]; cbn [scheck snd] in *.
  - destruct (parse s); [discriminate|]. destruct name as [[]|]; [discriminate|]. destruct last as [[]|]; discriminate.
  - destruct (parse s); [eapply IH; eassumption|]. destruct name as [[]|]; [discriminate|]. destruct last as [[]|]; discriminate.
Qed.
Lemma scheck_all l : (forall e, In e l -> parse (snd e) <> None) -> forall last, scheck last l = SOk (last_place last (map fst l)).
Proof.
  induction l as [|[name s] l IH]; intros H last; [reflexivity|]. cbn [scheck map fst last_place].
  destruct (parse s) eqn:E; [|exfalso; exact (H (name, s) (or_introl eq_refl) E)].
  rewrite IH by (intros e He; apply H; right; exact He). destruct name; reflexivity.
Qed.
Lemma span_success ts n : ssubstitute_idents O lookup salias parse why ts = SOk n <->
  parse (ssubstituted O lookup salias ts) = Some n /\
  forall e, In e (ssubstitution_stages O lookup salias ts) -> parse (snd e) <> None.
Proof.
  rewrite ssubstitute_idents_spec. unfold ssubstituted, ssubstitution_stages. split.
  - destruct (scheck None _) eqn:E; cbn [sbind]; try discriminate. intros H.
    split; [destruct (parse _); [congruence|discriminate]|eapply scheck_ok; exact E].
  - intros [H1 H2]. rewrite (scheck_all _ H2). cbn [sbind]. rewrite H1. reflexivity.
Qed.
(** The place an error is reported at. *)
Lemma span_failure ts before name s after :
  ssubstitution_stages O lookup salias ts = before ++ (name, s) :: after ->
  (forall e, In e before -> parse (snd e) <> None) -> parse s = None ->
  ssubstitute_idents O lookup salias parse why ts =
  match last_place None (map fst (before ++ [(name, s)])) with Some (x, p) => SErr (report s x) p | None => SPanic PErrorData end.
Proof.
  intros H1 H2 H3. rewrite ssubstitute_idents_spec. unfold ssubstitution_stages in H1. rewrite H1, scheck_app, (scheck_all _ H2).
  cbn [sbind scheck]. rewrite H3. rewrite map_app. cbn [map fst].
  assert (L : forall l last, last_place last (l ++ [name]) = match name with Some x => Some x | None => last_place last l end).
  { induction l as [|[q|] l IH]; intros last; cbn; [destruct name; reflexivity|apply IH|apply IH]. }
  rewrite L. destruct name as [[x p]|]; [reflexivity|]. destruct (last_place None (map fst before)) as [[x p]|]; reflexivity.
Qed.

Lemma sstages1_names t : map fst (sstages1 salias new_lit t) = occurrences1 salias new_lit t.
Proof.
  induction t as [x s|c j s|l s|d g s IH] using stt_ind'; cbn [sstages1 occurrences1]; try reflexivity.
  - destruct (salias x); reflexivity.
  - destruct (new_lit l); reflexivity.
  - rewrite map_map. cbn [fst]. induction IH as [|t g Ht IHg IH']; [reflexivity|].
    rewrite map_app, !map_map. cbn [fst flat_map]. rewrite <- IH', <- Ht. reflexivity.
Qed.
Lemma sstages_names ts : map fst (stagesOf ts) = occurrences salias new_lit ts.
Proof.
  induction ts as [|t ts IH]; [reflexivity|]. cbn [sstages]. rewrite map_app, !map_map. cbn [fst].
  unfold occurrences. cbn [flat_map]. f_equal; [rewrite <- sstages1_names; reflexivity|exact IH].
Qed.

Lemma scheck_error l : forall last er p, scheck last l = SErr er p ->
  exists before name s after x, l = before ++ (name, s) :: after /\ (forall e, In e before -> parse (snd e) <> None) /\ parse s = None /\
    er = report s x /\ last_place last (map fst (before ++ [(name, s)])) = Some (x, p).
Proof.
  induction l as [|[name s] l IH]; intros last er p H; [discriminate|]. cbn [scheck] in H. destruct (parse s) eqn:E.
  - apply IH in H as (before & name' & s' & after & x & -> & H1 & H2 & H3 & H4). exists ((name, s) :: before), name', s', after, x.
    split; [reflexivity|]. split; [intros e [<-|He]; [cbn; congruence|exact (H1 e He)]|]. split; [exact H2|]. split; [exact H3|].
    cbn. rewrite <- H4. destruct name; reflexivity.
  - exists [], name, s, l. assert (G : forall x q, SErr (A := option (str * span)) (report s x) q = SErr er p -> er = report s x /\ Some (x, q) = Some (x, p)) by (intros x q Hq; injection Hq as <- <-; auto).
    destruct name as [[x q]|]; [|destruct last as [[x q]|]; [|discriminate]]; apply G in H as [H1 H2]; exists x; repeat (split; try assumption; try reflexivity); intros e [].
Qed.
Lemma span_error ts er p : ssubstitute_idents O lookup salias parse why ts = SErr er p <->
  exists before name s after x, ssubstitution_stages O lookup salias ts = before ++ (name, s) :: after /\
    (forall e, In e before -> parse (snd e) <> None) /\ parse s = None /\
    er = report s x /\ last_place None (map fst (before ++ [(name, s)])) = Some (x, p).
Proof.
  split.
  - rewrite ssubstitute_idents_spec. destruct (scheck None _) eqn:E; cbn [sbind]; [destruct (parse _); discriminate| |discriminate].
    intros H. injection H as -> ->. apply scheck_error. exact E.
  - intros (before & name & s & after & x & H1 & H2 & H3 & -> & H5). rewrite (span_failure _ _ _ _ _ H1 H2 H3), H5. reflexivity.
Qed.
Lemma last_place_in l : forall last x p, last_place last l = Some (x, p) -> last = Some (x, p) \/ In (Some (x, p)) l.
Proof.
  induction l as [|[q|] l IH]; intros last x p H; cbn in *; [auto| |]; apply IH in H; intuition congruence.
Qed.
Lemma span_error_at ts er p : ssubstitute_idents O lookup salias parse why ts = SErr er p ->
  exists x, class er = SubstitutionError x /\ In (Some (x, p)) (occurrences salias (literal_of O lookup) ts).
Proof.
  rewrite span_error. intros (before & name & s & after & x & H1 & _ & _ & -> & H). exists x. split; [reflexivity|].
  apply last_place_in in H as [H|H]; [discriminate|]. rewrite <- sstages_names. unfold ssubstitution_stages in H1. rewrite H1.
  rewrite map_app in *. cbn [map fst] in *. rewrite in_app_iff in *. cbn in *. tauto.
Qed.
End Walk.

(** ** Erasing the spans *)
Section Erase.
Context (O : oracles) (lookup : str -> option value) (salias : str -> option (list stt)).
Hypothesis same : same_aliases lookup salias.
Notation new_lit := (literal_of O lookup).
Notation toks := (tokens_of lookup).

Lemma erase_replaced t : map erase (sreplaced salias new_lit t) = replaced toks new_lit (erase t).
Proof.
  induction t as [x s|c j s|l s|d g s IH] using stt_ind'; cbn [sreplaced replaced erase]; try reflexivity.
  - rewrite <- same. destruct (salias x); reflexivity.
  - destruct (new_lit l); reflexivity.
  - cbn [map erase]. do 2 f_equal. induction IH as [|t g Ht IHg IH']; [reflexivity|]. cbn [flat_map map]. rewrite map_app. congruence.
Qed.
Lemma erase_replaced_stream ts : map erase (sreplaced_stream salias new_lit ts) = replaced_stream toks new_lit (map erase ts).
Proof.
  induction ts as [|t ts IH]; [reflexivity|]. unfold sreplaced_stream, replaced_stream in *. cbn [flat_map map]. rewrite map_app, erase_replaced. congruence.
Qed.
Definition forget_stage (e : option (str * span) * list stt) : option str * list tt :=
  (option_map fst (fst e), map erase (snd e)).
Lemma erase_stages1 t : map forget_stage (sstages1 salias new_lit t) = stages1 toks new_lit (erase t).
Proof.
  induction t as [x s|c j s|l s|d g s IH] using stt_ind'; cbn [sstages1 stages1 erase]; try reflexivity.
  - rewrite <- same. destruct (salias x); reflexivity.
  - destruct (new_lit l); reflexivity.
  - rewrite map_map. unfold forget_stage at 1. cbn [fst snd map erase].
    rewrite <- (map_map forget_stage (fun e => (fst e, [TGroup d (snd e)]))). f_equal.
    induction IH as [|t g Ht IHg IH']; [reflexivity|]. cbn [map]. rewrite map_app, !map_map. f_equal.
    + rewrite <- Ht, map_map. apply map_ext. intros [n e]. unfold forget_stage. cbn. rewrite map_app. reflexivity.
    + rewrite <- IH', map_map. apply map_ext. intros [n e]. unfold forget_stage. cbn. rewrite map_app, erase_replaced. reflexivity.
Qed.
Lemma erase_stages ts : map forget_stage (sstages salias new_lit ts) = stages toks new_lit (map erase ts).
Proof.
  induction ts as [|t ts IH]; [reflexivity|]. cbn [sstages stages map]. rewrite map_app, !map_map. f_equal.
  - rewrite <- erase_stages1, map_map. apply map_ext. intros [n e]. unfold forget_stage. cbn. rewrite map_app. reflexivity.
  - rewrite <- IH, map_map. apply map_ext. intros [n e]. unfold forget_stage. cbn. rewrite map_app, erase_replaced. reflexivity.
Qed.

Context {N M : Type} (sparse : list stt -> option N) (why : list stt -> str) (parse : list tt -> option M) (f : N -> M).
Hypothesis spanless : forall ts, option_map f (sparse ts) = parse (map erase ts).

Lemma erase_check l : forall last,
  forget (option_map fst) (scheck O salias sparse why last l) = check parse (option_map fst last) (map forget_stage l).
Proof.
  induction l as [|[name s] l IH]; intros last; [reflexivity|]. cbn [scheck check map forget_stage fst snd].
  rewrite <- spanless. destruct (sparse s); cbn [option_map].
  - rewrite IH. destruct name as [[]|]; reflexivity.
  - destruct name as [[]|]; [reflexivity|]. destruct last as [[]|]; reflexivity.
Qed.
Lemma erase_substitute ts :
  forget f (ssubstitute_idents O lookup salias sparse why ts) = substitute_idents O lookup parse (map erase ts).
Proof.
  rewrite ssubstitute_idents_spec, substitute_idents_spec, <- erase_stages, <- erase_replaced_stream.
  pose proof (erase_check (sstages salias new_lit ts) None) as H. cbn [option_map] in H. rewrite <- H, <- spanless.
  destruct (scheck O salias sparse why None _); cbn; try reflexivity. destruct (sparse _); reflexivity.
Qed.
End Erase.

(** No aliases: every token keeps its span, the delimiters get the span of their group. *)
Lemma spans_unchanged O ts :
  (forall l, literal_of O (fun _ => None) l = None \/ literal_of O (fun _ => None) l = Some l) ->
  ssubstituted O (fun _ => None) (fun _ => None) ts = map collapsed ts.
Proof.
  intros H. unfold ssubstituted, sreplaced_stream.
  assert (T : forall t, sreplaced (fun _ => None) (literal_of O (fun _ => None)) t = [collapsed t]).
  { induction t as [x s|c j s|l s|d g s IH] using stt_ind'; cbn [sreplaced collapsed]; try reflexivity.
    - destruct (H l) as [->| ->]; reflexivity.
    - do 2 f_equal. induction IH as [|t g Ht IHg IH']; [reflexivity|]. cbn. rewrite Ht, IH'. reflexivity. }
  induction ts as [|t ts IH]; [reflexivity|]. cbn. rewrite T, IH. reflexivity.
Qed.

(** Where the spans of the result come from. *)
Lemma spans_from salias new_lit ts s : In s (spans (sreplaced_stream salias new_lit ts)) ->
  In s (spans ts) \/ exists x v, salias x = Some v /\ In s (spans v).
Proof.
  assert (T : forall t, In s (spans (sreplaced salias new_lit t)) -> In s (spans1 t) \/ exists x v, salias x = Some v /\ In s (spans v)).
  { induction t as [x p|c j p|l p|d g p IH] using stt_ind'; cbn [sreplaced].
    - destruct (salias x) as [v|] eqn:E; [right; eauto|cbn; tauto].
    - cbn. tauto.
    - destruct (new_lit l); cbn; tauto.
    - unfold spans. cbn. rewrite app_nil_r. intros [H|[H|[H|H]]]; [tauto|tauto|tauto|].
      cut (In s (flat_map spans1 g) \/ exists x v, salias x = Some v /\ In s (spans v)); [tauto|].
      induction IH as [|t g Ht IHg IH']; [destruct H|]. cbn [flat_map] in *. rewrite flat_map_app in H. apply in_app_or in H.
      rewrite in_app_iff. destruct H as [H|H]; [destruct (Ht H); tauto|destruct (IH' H); tauto]. }
  induction ts as [|t ts IH]; cbn; [tauto|]. unfold spans, sreplaced_stream in *. cbn [flat_map]. rewrite flat_map_app, !in_app_iff.
  intros [H|H]; [destruct (T t H); tauto|destruct (IH H); tauto].
Qed.
