(** Facts about substitution in token streams, from the walker's refinement. *)
From Verif Require Import Base BaseFacts Token Types Values FormatString StreamWalker SubstituteIdents SpecSubst WalkerProofs.

Lemma same_sym_list ts ts' : Forall2 same_but_strings ts ts' -> Forall2 same_but_strings ts' ts.
Proof.
  assert (Hl : forall ts, Forall (fun t => forall t', same_but_strings t t' -> same_but_strings t' t) ts ->
     forall ts', Forall2 same_but_strings ts ts' -> Forall2 same_but_strings ts' ts).
  { clear. intros ts H. induction H as [|t ts Ht _ IH]; intros ts' H; inversion H; subst; constructor; auto. }
  apply Hl. apply Forall_forall. intros t _. clear ts ts'. induction t as [x|c j|l|d g IH] using tt_ind'; intros t' H; inversion H; subst; constructor.
  apply Hl; assumption.
Qed.

Section Map.
Context (alias_tokens : str -> option (list tt)) (new_literal : lit -> option lit).
Notation repl := (replaced alias_tokens new_literal).
Notation rs := (replaced_stream alias_tokens new_literal).

Lemma replaced_app a b : rs (a ++ b) = rs a ++ rs b.
Proof. apply flat_map_app. Qed.

(** Leaves: every leaf is replaced for itself, whatever group it is in. *)
Lemma leaves_app a b : leaves (a ++ b) = leaves a ++ leaves b.
Proof. apply flat_map_app. Qed.
Lemma leaves_replaced ts : leaves (rs ts) = flat_map (fun t => leaves (repl t)) (leaves ts).
Proof.
  assert (H : forall t, leaves (repl t) = flat_map (fun t => leaves (repl t)) (leaves1 t)).
  { induction t as [x|c j|l|d g IH] using tt_ind'; try (cbn [leaves1 flat_map]; rewrite app_nil_r; reflexivity).
    cbn [replaced leaves1]. unfold leaves at 1. cbn [flat_map leaves1]. rewrite app_nil_r.
    induction IH as [|t g Ht IH' IHg]; [reflexivity|]. cbn [flat_map]. rewrite !flat_map_app, IHg.
    fold (leaves (repl t)). rewrite Ht. reflexivity. }
  induction ts as [|t ts IH]; [reflexivity|]. unfold leaves in *. cbn [flat_map replaced_stream]. rewrite !flat_map_app.
  f_equal; [apply H|exact IH].
Qed.

(** Streams without occurrences are unchanged. *)
Lemma replaced_unchanged ts :
  (forall x, In (TIdent x) (leaves ts) -> alias_tokens x = None) ->
  (forall l, In (TLit l) (leaves ts) -> new_literal l = None \/ new_literal l = Some l) -> rs ts = ts.
Proof.
  assert (H : forall t, (forall x, In (TIdent x) (leaves1 t) -> alias_tokens x = None) ->
     (forall l, In (TLit l) (leaves1 t) -> new_literal l = None \/ new_literal l = Some l) -> repl t = [t]).
  { induction t as [x|c j|l|d g IH] using tt_ind'; intros Hx Hl; cbn [replaced leaves1] in *.
    - rewrite Hx by (left; reflexivity). reflexivity.
    - reflexivity.
    - destruct (Hl l (or_introl eq_refl)) as [-> | ->]; reflexivity.
    - do 2 f_equal. induction IH as [|t g Ht IH' IHg]; [reflexivity|]. cbn [flat_map] in *.
      rewrite Ht, IHg; [reflexivity| | | |]; intros y Hy; auto using in_or_app. }
  intros Hx Hl. unfold leaves in *. induction ts as [|t ts IH]; [reflexivity|]. cbn [flat_map replaced_stream] in *.
  rewrite H; [|intros y Hy; auto using in_or_app ..].
  change (t :: rs ts = t :: ts). f_equal. apply IH; intros y Hy; auto using in_or_app.
Qed.

(** The last stage is the whole replacement. *)
Notation st := (stages alias_tokens new_literal).
Notation st1 := (stages1 alias_tokens new_literal).
Lemma st1_group d g : st1 (TGroup d g) = map (fun s => (fst s, [TGroup d (snd s)])) (st g).
Proof. reflexivity. Qed.

Lemma last_map {A B} (f : A -> B) l d : last (map f l) (f d) = f (last l d).
Proof. induction l as [|x l IH]; [reflexivity|]. destruct l as [|y l]; [reflexivity|]. exact IH. Qed.

Definition ends (l : list (option str * list tt)) (start final : list tt) : Prop :=
  match l with [] => final = start | _ => snd (last l (None, [])) = final end.
Lemma ends_map f g l start final : ends l start final -> (forall s, snd (g s) = f (snd s)) ->
  ends (map g l) (f start) (f final).
Proof.
  intros H Hg. destruct l as [|x l]; [cbn in *; congruence|]. cbn [ends map] in H |- *.
  rewrite <- H. change (g x :: map g l) with (map g (x :: l)).
  rewrite <- Hg, <- (last_map g). f_equal. clear. revert x. induction l as [|y l IH]; intros x; [reflexivity|]. exact (IH y).
Qed.
Lemma ends_app a b x y z : ends a x y -> ends b y z -> ends (a ++ b) x z.
Proof.
  destruct a as [|p a]; [cbn; intros ->; trivial|]. destruct b as [|q b]; [rewrite app_nil_r; cbn [ends]; intros <- <-; reflexivity|].
  intros _ H. unfold ends in *. destruct ((p :: a) ++ q :: b) eqn:E; [discriminate|]. rewrite <- E, last_app by discriminate. exact H.
Qed.

Lemma stages_ends ts : ends (st ts) ts (rs ts).
Proof.
  assert (Hl : forall ts, Forall (fun t => ends (st1 t) [t] (repl t)) ts -> ends (st ts) ts (rs ts)).
  { clear ts. intros ts H. induction H as [|t ts Ht _ IH]; [reflexivity|]. cbn [stages].
    eapply ends_app with (y := repl t ++ ts).
    - apply (ends_map (fun s => s ++ ts) (fun s => (fst s, snd s ++ ts)) _ [t] (repl t) Ht). reflexivity.
    - apply (ends_map (fun s => repl t ++ s) (fun s => (fst s, repl t ++ snd s)) _ ts (rs ts) IH). reflexivity. }
  apply Hl. apply Forall_forall. intros t _. clear ts. induction t as [x|c j|l|d g IH] using tt_ind'.
  - cbn. destruct (alias_tokens x); reflexivity.
  - reflexivity.
  - cbn. destruct (new_literal l); reflexivity.
  - rewrite st1_group. apply (ends_map (fun s => [TGroup d s]) _ _ g (rs g) (Hl _ IH)). reflexivity.
Qed.

(** One stage per occurrence. *)
Notation occurs := (occurs alias_tokens new_literal).
Lemma stages_names ts : map fst (st ts) = map occurrence_name (filter occurs (leaves ts)).
Proof.
  assert (Hl : forall ts, Forall (fun t => map fst (st1 t) = map occurrence_name (filter occurs (leaves1 t))) ts ->
     map fst (st ts) = map occurrence_name (filter occurs (leaves ts))).
  { clear ts. intros ts H. induction H as [|t ts Ht _ IH]; [reflexivity|]. cbn [stages]. unfold leaves. cbn [flat_map].
    fold (leaves ts). rewrite filter_app, !map_app, !map_map. f_equal; [exact Ht|exact IH]. }
  apply Hl. apply Forall_forall. intros t _. clear ts. induction t as [x|c j|l|d g IH] using tt_ind'.
  - cbn. destruct (alias_tokens x); reflexivity.
  - reflexivity.
  - cbn. destruct (new_literal l); reflexivity.
  - rewrite st1_group, map_map. cbn [fst leaves1]. exact (Hl _ IH).
Qed.

(** Stages at string literals differ from the previous stage in strings only. *)
Fixpoint steps_ok (R : list tt -> list tt -> Prop) (prev : list tt) (l : list (option str * list tt)) : Prop :=
  match l with
  | [] => True
  | (name, s) :: r => (name = None -> R prev s) /\ steps_ok R s r
  end.
Definition final (prev : list tt) (l : list (option str * list tt)) : list tt := fold_left (fun _ s => snd s) l prev.
Lemma steps_ok_app R a : forall prev b, steps_ok R prev (a ++ b) <-> steps_ok R prev a /\ steps_ok R (final prev a) b.
Proof. induction a as [|[n s] a IH]; intros prev b; cbn; [tauto|]. rewrite IH. tauto. Qed.
Lemma final_ends l a b : ends l a b -> final a l = b.
Proof.
  unfold ends, final. destruct l as [|x l]; [cbn; congruence|]. intros <-. cbn [fold_left].
  revert x. induction l as [|y l IH]; intros x; [reflexivity|]. cbn [fold_left]. rewrite IH. reflexivity.
Qed.
Lemma steps_ok_map (R : list tt -> list tt -> Prop) f (g : option str * list tt -> option str * list tt) l : forall prev, (forall s, snd (g s) = f (snd s)) -> (forall s, fst (g s) = fst s) ->
  (forall a b, R a b -> R (f a) (f b)) -> steps_ok R prev l -> steps_ok R (f prev) (map g l).
Proof.
  induction l as [|[n s] l IH]; intros prev Hs Hf HR H; [exact I|]. destruct H as [H1 H2].
  cbn [map]. destruct (g (n, s)) as [n' s'] eqn:E. pose proof (Hs (n, s)) as Es. pose proof (Hf (n, s)) as Ef. rewrite E in Es, Ef. cbn in Es, Ef. subst n' s'.
  split; [auto|]. apply IH; auto.
Qed.

Hypothesis strings_only : forall l l', new_literal l = Some l' -> exists v p v' p', l = LStr v p /\ l' = LStr v' p'.
Lemma same_refl t : same_but_strings t t.
Proof.
  induction t as [x|c j|l|d g IH] using tt_ind'; constructor. induction IH; constructor; auto.
Qed.
Lemma same_refl_list ts : Forall2 same_but_strings ts ts.
Proof. induction ts; constructor; auto using same_refl. Qed.

Lemma stages_steps_ok ts : steps_ok (Forall2 same_but_strings) ts (st ts).
Proof.
  assert (Hl : forall ts, Forall (fun t => steps_ok (Forall2 same_but_strings) [t] (st1 t)) ts -> steps_ok (Forall2 same_but_strings) ts (st ts)).
  { clear ts. intros ts H. induction H as [|t ts Ht _ IH]; [exact I|]. cbn [stages]. rewrite steps_ok_app. split.
    - apply (steps_ok_map _ (fun s => s ++ ts) _ _ [t]); auto. intros a b Hab. apply Forall2_app; [exact Hab|apply same_refl_list].
    - assert (Hf : final (t :: ts) (map (fun s => (fst s, snd s ++ ts)) (st1 t)) = repl t ++ ts).
      { apply final_ends. apply (ends_map (fun s => s ++ ts) _ (st1 t) [t] (repl t)); [|reflexivity].
        pose proof (stages_ends [t]) as He. cbn [stages map] in He. rewrite app_nil_r in He. unfold replaced_stream in He. cbn [flat_map] in He. rewrite app_nil_r in He.
        replace (map (fun s => (fst s, snd s ++ [])) (st1 t)) with (st1 t) in He; [exact He|].
        rewrite <- (map_id (st1 t)) at 1. apply map_ext. intros [a b]. cbn. rewrite app_nil_r. reflexivity. }
      rewrite Hf. apply (steps_ok_map _ (fun s => repl t ++ s) _ _ ts); auto. intros a b Hab. apply Forall2_app; [apply same_refl_list|exact Hab]. }
  apply Hl. apply Forall_forall. intros t _. clear ts. induction t as [x|c j|l|d g IH] using tt_ind'.
  - cbn. destruct (alias_tokens x); cbn; [|trivial]. split; [discriminate|trivial].
  - exact I.
  - cbn. destruct (new_literal l) as [l'|] eqn:E; cbn; [|trivial]. split; [intros _|trivial].
    destruct (strings_only _ _ E) as (v & p & v' & p' & -> & ->). repeat constructor.
  - rewrite st1_group. apply (steps_ok_map _ (fun s => [TGroup d s]) _ _ g); auto. intros a b Hab. constructor; constructor. exact Hab.
Qed.
End Map.

(** ** The macro's substitution *)
Section Macro.
Context (O : oracles) (lookup : str -> option value).
Context {N : Type} (parse : list tt -> option N).
Notation check := (check parse).
Notation subst := (substituted O lookup).
Notation stgs := (substitution_stages O lookup).

Lemma check_all last l : (forall s, In s l -> parse (snd s) <> None) -> exists last', check last l = Ok last'.
Proof.
  revert last; induction l as [|[n s] l IH]; intros last H; [exists last; reflexivity|]. cbn [WalkerProofs.check].
  destruct (parse s) eqn:E; [|exfalso; apply (H (n, s)); [left; reflexivity|exact E]]. apply IH. intros s' Hs. apply H. right; exact Hs.
Qed.
Lemma check_ok last l last' : check last l = Ok last' -> forall s, In s l -> parse (snd s) <> None.
Proof.
  revert last; induction l as [|[n s] l IH]; intros last H s' Hs; [contradiction|]. cbn [WalkerProofs.check] in H.
  destruct (parse s) eqn:E; [|destruct n; [|destruct last]; discriminate].
  destruct Hs as [<-|Hs]; [cbn; congruence|]. eapply IH; eassumption.
Qed.

Lemma success_iff ts n : substitute_idents O lookup parse ts = Ok n <->
  parse (subst ts) = Some n /\ forall s, In s (stgs ts) -> parse (snd s) <> None.
Proof.
  rewrite substitute_idents_spec. unfold substituted, substitution_stages. split.
  - destruct (check None _) eqn:E; cbn [bind]; try discriminate. destruct (parse _) eqn:Ep; try discriminate. intros H; injection H as ->.
    split; [reflexivity|]. eapply check_ok; exact E.
  - intros [Hp Hs]. destruct (check_all None _ Hs) as [l ->]. cbn [bind]. rewrite Hp. reflexivity.
Qed.

Lemma substitutes ts n : substitute_idents O lookup parse ts = Ok n -> parse (subst ts) = Some n.
Proof. intros H. apply success_iff in H. tauto. Qed.

Lemma always_parses ts : (forall ts, parse ts <> None) -> exists n, substitute_idents O lookup parse ts = Ok n /\ parse (subst ts) = Some n.
Proof.
  intros H. destruct (parse (subst ts)) as [n|] eqn:E; [|exfalso; eapply H; exact E]. exists n. split; [|reflexivity].
  apply success_iff. split; [exact E|]. intros s _. apply H.
Qed.

(** The first stage that does not parse. *)
Lemma first_failure ts before name s after : stgs ts = before ++ (name, s) :: after ->
  (forall s', In s' before -> parse (snd s') <> None) -> parse s = None ->
  substitute_idents O lookup parse ts =
  match last_alias None (before ++ [(name, s)]) with Some x => Err (SubstitutionError x) | None => Panic PErrorData end.
Proof.
  intros H Hb Hs. rewrite substitute_idents_spec. unfold substitution_stages in H. rewrite H, check_app.
  unfold last_alias. rewrite fold_left_app. cbn [fold_left fst].
  assert (Hc : check None before = Ok (fold_left (fun a s => match fst s with Some x => Some x | None => a end) before None)).
  { clear H Hs. generalize (@None str). induction before as [|[n t] l IH]; intros last; [reflexivity|]. cbn [WalkerProofs.check fold_left fst].
    destruct (parse t) eqn:E; [|exfalso; apply (Hb (n, t)); [left; reflexivity|exact E]]. apply IH. intros s' Hs. apply Hb. right; exact Hs. }
  rewrite Hc. cbn [bind WalkerProofs.check]. rewrite Hs. destruct name; [reflexivity|]. destruct (fold_left _ before None); reflexivity.
Qed.

Hypothesis strings : forall l r, parse_lit_str O [TLit l] = Some r -> exists v p, l = LStr v p.
Hypothesis blind : ignores_strings parse.

Lemma literal_strings l l' : literal_of O lookup l = Some l' -> exists v p v' p', l = LStr v p /\ l' = LStr v' p'.
Proof.
  unfold literal_of. destruct (parse_lit_str O [TLit l]) as [[v p]|] eqn:E; [|discriminate]. intros H. injection H as <-.
  destruct (strings _ _ E) as (w & q & ->). eauto 6.
Qed.

Lemma failing_stage_named ts before name s after : parse ts <> None -> stgs ts = before ++ (name, s) :: after ->
  (forall s', In s' before -> parse (snd s') <> None) -> parse s = None -> exists x, name = Some x.
Proof.
  intros Hp H Hb Hs. destruct name as [x|]; [eauto|exfalso].
  pose proof (stages_steps_ok (tokens_of lookup) (literal_of O lookup) literal_strings ts) as Hok.
  unfold substitution_stages in H. rewrite H, steps_ok_app in Hok. destruct Hok as [_ [Hok _]]. specialize (Hok eq_refl).
  assert (Hf : parse (final ts before) <> None).
  { destruct before as [|b before'] eqn:Eb; [exact Hp|]. rewrite <- Eb in *. assert (Hne : before <> []) by congruence.
    clear Eb. pose proof (app_removelast_last (None, []) Hne) as Er. rewrite Er. unfold final. rewrite fold_left_app. cbn [fold_left].
    apply Hb. rewrite Er at 2. apply in_or_app. right. left. reflexivity. }
  apply Hf. apply (blind s); [|exact Hs].
  apply same_sym_list. exact Hok.
Qed.

(** Every outcome when the code given is valid and the parser does not look into strings. *)
Lemma outcomes ts : parse ts <> None ->
  (exists n, substitute_idents O lookup parse ts = Ok n /\ parse (subst ts) = Some n /\ forall s, In s (stgs ts) -> parse (snd s) <> None) \/
  (exists before x s after, stgs ts = before ++ (Some x, s) :: after /\ (forall s', In s' before -> parse (snd s') <> None) /\ parse s = None /\
     substitute_idents O lookup parse ts = Err (SubstitutionError x)).
Proof.
  intros Hp.
  assert (Hd : (forall s, In s (stgs ts) -> parse (snd s) <> None) \/
     exists before name s after, stgs ts = before ++ (name, s) :: after /\ (forall s', In s' before -> parse (snd s') <> None) /\ parse s = None).
  { generalize (stgs ts). induction l as [|[n s] l IH]; [left; contradiction|].
    destruct (parse s) eqn:E.
    - destruct IH as [IH|(b & n' & s' & a & -> & Hb & Hs)].
      + left. intros s' [<-|Hs]; [cbn; congruence|auto].
      + right. exists ((n, s) :: b), n', s', a. split; [reflexivity|]. split; [|exact Hs]. intros s'' [<-|Hi]; [cbn; congruence|auto].
    - right. exists [], n, s, l. split; [reflexivity|]. split; [contradiction|exact E]. }
  destruct Hd as [Hall|(b & n & s & a & He & Hb & Hs)].
  - left. destruct (parse (subst ts)) as [n|] eqn:En.
    + exists n. split; [|auto]. apply success_iff. auto.
    + exfalso. pose proof (stages_ends (tokens_of lookup) (literal_of O lookup) ts) as H. unfold ends in H.
      fold (stgs ts) in H. fold (subst ts) in H. destruct (stgs ts) as [|s l] eqn:El; [congruence|].
      apply (Hall (last (s :: l) (None, []))); [|congruence].
      assert (Hne : s :: l <> []) by discriminate. pose proof (app_removelast_last (None, []) Hne) as Er.
      rewrite Er at 2. apply in_or_app. right. left. reflexivity.
  - right. destruct (failing_stage_named _ _ _ _ _ Hp He Hb Hs) as [x ->]. exists b, x, s, a. repeat split; auto.
    rewrite (first_failure _ _ _ _ _ He Hb Hs). unfold last_alias. rewrite fold_left_app. reflexivity.
Qed.
End Macro.

(** Swapping twice gives the stream back. *)
Lemma swap_twice O a b ts : a <> b -> (forall l, In (TLit l) (leaves ts) -> parse_lit_str O [TLit l] = None) ->
  substituted O (swapping a b) (substituted O (swapping a b) ts) = ts.
Proof.
  intros Hab. unfold substituted.
  set (al := tokens_of (swapping a b)). set (nl := literal_of O (swapping a b)).
  assert (Hn : forall l, parse_lit_str O [TLit l] = None -> nl l = None) by (intros l H; unfold nl, literal_of; rewrite H; reflexivity).
  assert (H1 : forall t, (forall l, In (TLit l) (leaves1 t) -> nl l = None) -> replaced_stream al nl (replaced al nl t) = [t]).
  { induction t as [x|c j|l|d g IH] using tt_ind'; intros Hl.
    - cbn [replaced]. unfold al at 2, tokens_of, swapping.
      destruct (str_eqb x a) eqn:Ea; [|destruct (str_eqb x b) eqn:Eb]; cbn [option_map to_tokens replaced_stream flat_map replaced app];
        unfold al, tokens_of, swapping.
      + apply str_eqb_eq in Ea as ->. rewrite str_eqb_refl. rewrite str_eqb_neq by congruence. reflexivity.
      + apply str_eqb_eq in Eb as ->. rewrite str_eqb_refl. reflexivity.
      + rewrite Ea, Eb. reflexivity.
    - reflexivity.
    - cbn [replaced]. rewrite (Hl l (or_introl eq_refl)). unfold replaced_stream. cbn. rewrite (Hl l (or_introl eq_refl)). reflexivity.
    - cbn [replaced replaced_stream flat_map app]. cbn [leaves1] in Hl. do 2 f_equal.
      induction IH as [|t g Ht _ IHg]; [reflexivity|]. cbn [flat_map] in *. rewrite flat_map_app.
      unfold replaced_stream in Ht. rewrite Ht, IHg; [reflexivity| |]; intros; apply Hl, in_or_app; auto. }
  intros Hl. induction ts as [|t ts IH]; [reflexivity|]. unfold leaves in Hl. cbn [flat_map] in Hl.
  change (replaced_stream al nl (t :: ts)) with (replaced al nl t ++ replaced_stream al nl ts). rewrite replaced_app, H1, IH; [reflexivity| |].
  - intros l Hi. apply Hl, in_or_app. auto.
  - intros l Hi. apply Hn, Hl, in_or_app. auto.
Qed.

(** The composition law: what a second substitution finds is what the first put there. *)
Lemma replaced_compose f g nf ng ts :
  (forall l, nf l = None) -> (forall l, ng l = None) ->
  replaced_stream g ng (replaced_stream f nf ts) =
  replaced_stream (fun x => match f x with Some l => Some (replaced_stream g ng l) | None => g x end) ng ts.
Proof.
  intros Hf Hg. set (h := fun x => match f x with Some l => Some (replaced_stream g ng l) | None => g x end).
  assert (H1 : forall t, replaced_stream g ng (replaced f nf t) = replaced h ng t).
  { induction t as [x|c j|l|d l IH] using tt_ind'.
    - cbn [replaced]. unfold h at 1. destruct (f x) eqn:E; [reflexivity|]. unfold replaced_stream. cbn. rewrite app_nil_r. reflexivity.
    - reflexivity.
    - cbn [replaced]. rewrite Hf, Hg. unfold replaced_stream. cbn. rewrite Hg. reflexivity.
    - cbn [replaced replaced_stream flat_map app]. do 2 f_equal. induction IH as [|t l Ht _ IH]; [reflexivity|].
      cbn [flat_map]. rewrite flat_map_app. unfold replaced_stream in Ht. rewrite Ht, IH. reflexivity. }
  induction ts as [|t ts IH]; [reflexivity|].
  change (replaced_stream f nf (t :: ts)) with (replaced f nf t ++ replaced_stream f nf ts). rewrite replaced_app, H1, IH. reflexivity.
Qed.

(** ** The statements of PropertiesSubst *)
Lemma leaves_no_group ts d g : ~ In (TGroup d g) (leaves ts).
Proof.
  assert (H1 : forall u, ~ In (TGroup d g) (leaves1 u)).
  { induction u as [x|c j|l|d' g' IH] using tt_ind'; cbn [leaves1]; try (intros [H|[]]; discriminate).
    induction IH as [|u l Hu _ IHg]; [intros []|]. cbn [flat_map]. rewrite in_app_iff. tauto. }
  unfold leaves. rewrite in_flat_map. intros (u & _ & Hu). exact (H1 u Hu).
Qed.
Lemma substituted_leaves O lookup ts :
  leaves (substituted O lookup ts) =
  flat_map (fun t => match t with
                     | TIdent x => match lookup x with Some v => leaves (to_tokens v) | None => [t] end
                     | TLit l => match parse_lit_str O [t] with Some (v, _) => [TLit (LStr (format_string O lookup v) [])] | None => [t] end
                     | _ => leaves [t]
                     end) (leaves ts).
Proof.
  unfold substituted. rewrite leaves_replaced.
  assert (Hl : forall t, In t (leaves ts) -> match t with TGroup _ _ => False | _ => True end).
  { intros t. assert (H1 : forall u, In t (leaves1 u) -> match t with TGroup _ _ => False | _ => True end).
    { induction u as [x|c j|l|d g IH] using tt_ind'; cbn [leaves1]; try (intros [<-|[]]; exact I).
      induction IH as [|u g Hu _ IHg]; [contradiction|]. cbn [flat_map]. rewrite in_app_iff. tauto. }
    unfold leaves. rewrite in_flat_map. intros (u & _ & Hu). exact (H1 u Hu). }
  induction (leaves ts) as [|t l IH]; [reflexivity|]. cbn [flat_map]. rewrite IH by (intros; apply Hl; right; assumption). f_equal.
  specialize (Hl t (or_introl eq_refl)). destruct t as [x|c j|l'|]; [| | |contradiction]; cbn [replaced].
  - unfold tokens_of. destruct (lookup x); reflexivity.
  - reflexivity.
  - unfold literal_of. destruct (parse_lit_str O [TLit l']) as [[v p]|]; reflexivity.
Qed.

Lemma substituted_unchanged O lookup ts :
  (forall x, In (TIdent x) (leaves ts) -> lookup x = None) ->
  (forall l v p, In (TLit l) (leaves ts) -> parse_lit_str O [TLit l] = Some (v, p) -> l = LStr (format_string O lookup v) []) ->
  substituted O lookup ts = ts.
Proof.
  intros Hx Hl. apply replaced_unchanged.
  - intros x H. unfold tokens_of. rewrite Hx by exact H. reflexivity.
  - intros l H. unfold literal_of. destruct (parse_lit_str O [TLit l]) as [[v p]|] eqn:E; [right|left; reflexivity].
    f_equal. symmetry. eapply Hl; eassumption.
Qed.

Lemma substituted_group O lookup a b d ts :
  substituted O lookup (a ++ TGroup d ts :: b) = substituted O lookup a ++ TGroup d (substituted O lookup ts) :: substituted O lookup b.
Proof. unfold substituted. rewrite replaced_app. reflexivity. Qed.

Lemma run_all O lookup ts : substitute_idents O lookup (@Some (list tt)) ts = Ok (substituted O lookup ts).
Proof. apply success_iff. split; [reflexivity|discriminate]. Qed.

Lemma swap_twice_run O a b ts : a <> b ->
  (forall l, In (TLit l) (leaves ts) -> parse_lit_str O [TLit l] = None) ->
  (let! once := substitute_idents O (swapping a b) (@Some (list tt)) ts in
   substitute_idents O (swapping a b) (@Some (list tt)) once) = Ok ts.
Proof. intros Hab Hl. rewrite run_all. cbn [bind]. rewrite run_all, swap_twice by assumption. reflexivity. Qed.

Lemma compose_run O f g ts : (forall l, parse_lit_str O [TLit l] = None) ->
  (let! once := substitute_idents O f (@Some (list tt)) ts in substitute_idents O g (@Some (list tt)) once) =
  substitute_idents O (fun x => match f x with
                                | Some v => Some (VTokens (substituted O g (to_tokens v)))
                                | None => g x end) (@Some (list tt)) ts.
Proof.
  intros Hl. assert (Hn : forall h l, literal_of O h l = None) by (intros h l; unfold literal_of; rewrite Hl; reflexivity).
  rewrite run_all. cbn [bind]. rewrite !run_all. f_equal. unfold substituted at 1 2. rewrite replaced_compose by auto. unfold substituted.
  assert (He : forall al al' nl nl' us, (forall x, al x = al' x) -> (forall l, nl l = nl' l) -> replaced_stream al nl us = replaced_stream al' nl' us).
  { clear. intros al al' nl nl' us Ha Hn'.
    assert (H1 : forall t, replaced al nl t = replaced al' nl' t).
    { induction t as [x|c j|l|d l IH] using tt_ind'; cbn [replaced]; [rewrite Ha; reflexivity|reflexivity|rewrite Hn'; reflexivity|].
      do 2 f_equal. induction IH as [|t l Ht _ IH]; [reflexivity|]. cbn [flat_map]. rewrite Ht, IH. reflexivity. }
    induction us as [|t us IH]; [reflexivity|]. unfold replaced_stream in *. cbn [flat_map]. rewrite H1, IH. reflexivity. }
  apply He; [|intros l; rewrite !Hn; reflexivity]. intros x. unfold tokens_of. destruct (f x) as [v|]; reflexivity.
Qed.

Lemma self_reference_run O lookup x v ts :
  lookup x = Some v ->
  (forall l, In (TLit l) (leaves ts) -> parse_lit_str O [TLit l] = None) ->
  (forall y, In (TIdent y) (leaves ts) -> y = x) -> leaves ts = ts ->
  substitute_idents O lookup (@Some (list tt)) ts =
  Ok (flat_map (fun t => match t with TIdent _ => to_tokens v | _ => [t] end) ts).
Proof.
  intros Hv Hl Hi He. rewrite run_all. f_equal. rewrite He in Hl, Hi. unfold substituted, replaced_stream.
  assert (Hg : forall d g, ~ In (TGroup d g) ts).
  { intros d g Hin. rewrite <- He in Hin. unfold leaves in Hin. apply in_flat_map in Hin as (u & _ & Hu).
    revert Hu. induction u as [y|c j|l|d' g' IH] using tt_ind'; cbn [leaves1]; try (intros [H|[]]; discriminate).
    induction IH as [|u l Hu _ IH]; [contradiction|]. cbn [flat_map]. rewrite in_app_iff. tauto. }
  clear He. induction ts as [|t ts IH]; [reflexivity|]. cbn [flat_map].
  rewrite IH; [|intros l H; apply Hl; right; exact H|intros y H; apply Hi; right; exact H|intros d g H; apply (Hg d g); right; exact H].
  f_equal. destruct t as [y|c j|l|d g]; cbn [replaced].
  - rewrite (Hi y (or_introl eq_refl)). unfold tokens_of. rewrite Hv. reflexivity.
  - reflexivity.
  - unfold literal_of. rewrite (Hl l (or_introl eq_refl)). reflexivity.
  - exfalso. apply (Hg d g). left. reflexivity.
Qed.

Lemma walk_terminates S (V : visitor S) :
  (forall s c g a s', enter_group V s c g = Ok (a, s') -> forall ts, a <> Replace ts) ->
  forall s ts fuel, 1 + 2 * stream_size ts <= fuel ->
  walk V fuel s ts = walk V (1 + 2 * stream_size ts) s ts /\
  ((forall s c x p, visit_ident V s c x <> Panic p) -> (forall s c x j p, visit_punct V s c x j <> Panic p) ->
   (forall s c x p, visit_literal V s c x <> Panic p) -> (forall s c d x p, visit_group V s c d x <> Panic p) ->
   (forall s c x p, enter_group V s c x <> Panic p) -> (forall s c x p, exit_group V s c x <> Panic p) ->
   (forall s c p, after_replace V s c <> Panic p) ->
   forall p, walk V fuel s ts <> Panic p).
Proof.
  intros He s ts fuel Hf. pose proof (steps_linear ts) as Hs. split.
  - etransitivity; [apply (walk_fuel V He); lia|symmetry; apply (walk_fuel V He); lia].
  - intros H1 H2 H3 H4 H5 H6 H7 p. apply walk_safe; auto. lia.
Qed.

Lemma check_panic {N} (parse : list tt -> option N) last l p : check parse last l = Panic p -> p = PErrorData.
Proof.
  revert last. induction l as [|[n s] l IH]; intros last H; [discriminate|]. cbn [check] in H. destruct (parse s); [eapply IH; exact H|].
  destruct n; [discriminate|]. destruct last; [discriminate|congruence].
Qed.
Lemma substitution_terminates O lookup N (parse : list tt -> option N) ts :
  substitute_idents O lookup parse ts <> Panic PFuel /\ substitute_idents O lookup parse ts <> Panic PFoldGroup /\
  substitute_idents O lookup parse ts <> Panic PIndex.
Proof.
  rewrite substitute_idents_spec. destruct (check parse None _) as [a|e|p] eqn:E; cbn [bind].
  - destruct (parse _); repeat split; discriminate.
  - repeat split; discriminate.
  - apply check_panic in E as ->. repeat split; discriminate.
Qed.

Lemma stages_shape O lookup ts :
  map fst (substitution_stages O lookup ts) =
    map occurrence_name (filter (occurs (tokens_of lookup) (literal_of O lookup)) (leaves ts)) /\
  snd (last (substitution_stages O lookup ts) (None, ts)) = substituted O lookup ts.
Proof.
  split; [apply stages_names|]. pose proof (stages_ends (tokens_of lookup) (literal_of O lookup) ts) as H.
  unfold substitution_stages, substituted, ends in *. destruct (stages _ _ ts) as [|s l]; [symmetry; exact H|].
  rewrite <- H. f_equal. clear. revert s. induction l as [|t l IH]; intros s; [reflexivity|]. exact (IH t).
Qed.
