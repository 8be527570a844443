(** Proofs about uses inside the block of another use. *)
From Coq Require Import String Permutation.
From Verif Require Import Base BaseFacts Token Types Values Ast Env Item FormatString Expand Deprecation Interpreter Parse Macro
  SpecProduct SpecTuple SpecElab SpecPrograms SpecParse SpecFormat SpecSubst SpecItem SpecDeprecation SpecMacro SpecRepro SpecForms SpecUnroll SpecOrder SpecLoops SpecNested
  ElabFacts ElabProofs FormatProofs SubstFacts InterpreterProofs ReproProofs MacroProofs MeaningProofs NamingProofs UnrollProofs OrderProofs UnrollAllProofs LoopAlgebra.
Open Scope list_scope.

(** ** Strings *)
Definition then_ {A} (f g : str -> option A) (x : str) : option A := match f x with Some v => Some v | None => g x end.
Section Strings.
Context (O : oracles) (f g : str -> option value).
Context (Hv : forall x v, f x = Some v -> ~ In 37%N (shown O v)).
Let h := then_ f g.
Definition filled (p : piece) : list piece :=
  match p with
  | PHole t k =>
      match f (name_of (is_whitespace O) t) with
      | Some v => match shown O v with [] => [] | s => [PText s] end
      | None => [p]
      end
  | _ => [p]
  end.
Definition opens (ps : list piece) (tail : option str) : Prop := match ps with [] => tail = None | p :: _ => is_text p = true end.
Lemma filled_separated ps tail : Forall (wf_piece 37%N) ps -> separated ps tail ->
  separated (flat_map filled ps) tail /\ (opens ps tail -> opens (flat_map filled ps) tail).
Proof.
  induction ps as [|p ps IH]; intros Hw Hs; [split; auto|]. inversion Hw as [|? ? Hp Hps]; subst. cbn [separated] in Hs. destruct Hs as (Hn & Hs).
  destruct (IH Hps Hs) as (IH1 & IH2). destruct p as [s|t k|n]; cbn [flat_map filled app].
  - split; [|reflexivity]. cbn [separated]. split; [|exact IH1]. destruct (flat_map filled ps); left; reflexivity.
  - assert (Ho : opens ps tail) by (destruct ps as [|q ps]; cbn [opens is_text] in *; destruct Hn as [Hn|Hn]; try discriminate Hn; exact Hn).
    split; [|discriminate]. destruct (f _) as [v|]; [destruct (shown O v) as [|c s]; [exact IH1|]|]; cbn [app separated]; (split; [|exact IH1]).
    + destruct (flat_map filled ps); left; reflexivity.
    + specialize (IH2 Ho). destruct (flat_map filled ps); right; exact IH2.
  - split; [|discriminate]. cbn [separated]. split; [|exact IH1].
    assert (Ho : opens ps tail) by (destruct ps as [|q ps]; cbn [opens is_text] in *; destruct Hn as [Hn|Hn]; try discriminate Hn; exact Hn).
    specialize (IH2 Ho). destruct (flat_map filled ps); right; exact IH2.
Qed.
Lemma filled_wf ps tail : wf 37%N ps tail -> wf 37%N (flat_map filled ps) tail.
Proof.
  intros (Hw & Hs & Ht). split; [|split; [apply filled_separated; assumption|exact Ht]]. induction Hw as [|p ps Hp _ IH]; [constructor|]. cbn [flat_map]. apply Forall_app. split; [|apply IH; clear -Hs; destruct Hs; assumption].
  destruct p as [s|t k|n]; cbn [filled]; try (constructor; [exact Hp|constructor]). destruct (f _) as [v|] eqn:E; [|constructor; [exact Hp|constructor]].
  pose proof (Hv _ _ E) as Hn. destruct (shown O v) as [|c s]; constructor; [|constructor]. split; [discriminate|exact Hn].
Qed.
Lemma render_app ps qs tail : render 37%N (ps ++ qs) tail = concat (map (render1 37%N) ps) ++ render 37%N qs tail.
Proof. unfold render. rewrite map_app, concat_app, app_assoc. reflexivity. Qed.
Lemma filled_render ps tail : Forall once_only ps -> render 37%N (flat_map filled ps) tail = SpecFormat.meaning 37%N (is_whitespace O) (vo O f) ps tail.
Proof.
  intros H. unfold render, SpecFormat.meaning. f_equal. induction H as [|p ps Hp _ IH]; [reflexivity|]. cbn [flat_map map concat]. rewrite map_app, concat_app, IH. f_equal.
  destruct p as [s|t k|n]; cbn [filled meaning1 once_only] in *; [apply app_nil_r| |contradiction]. subst k. unfold vo. rewrite app_nil_r.
  destruct (f _) as [v|]; cbn [option_map]; [|cbn; rewrite app_nil_r; reflexivity]. destruct (shown O v); [reflexivity|]. cbn. rewrite app_nil_r. reflexivity.
Qed.
Lemma filled_meaning ps tail : Forall once_only ps ->
  SpecFormat.meaning 37%N (is_whitespace O) (vo O g) (flat_map filled ps) tail = SpecFormat.meaning 37%N (is_whitespace O) (vo O h) ps tail.
Proof.
  intros H. unfold SpecFormat.meaning. f_equal. induction H as [|p ps Hp _ IH]; [reflexivity|]. cbn [flat_map map concat]. rewrite map_app, concat_app, IH. f_equal.
  destruct p as [s|t k|n]; cbn [filled meaning1 once_only] in *; [apply app_nil_r| |contradiction]. subst k. unfold vo, h, then_. rewrite app_nil_r.
  destruct (f _) as [v|]; cbn [option_map]; [|cbn; rewrite !app_nil_r; reflexivity]. destruct (shown O v); [reflexivity|]. cbn. rewrite app_nil_r. reflexivity.
Qed.
Lemma format_twice v : plain_string v -> format_string O g (format_string O f v) = format_string O h v.
Proof.
  intros (ps & tail & -> & Hw & H1). pose proof (format_meaning O f ps tail Hw) as E1. pose proof (format_meaning O g (flat_map filled ps) tail (filled_wf ps tail Hw)) as E2.
  pose proof (format_meaning O h ps tail Hw) as E3. unfold percent in *. rewrite E1, E3, <- (filled_render ps tail H1), E2. apply filled_meaning, H1.
Qed.
End Strings.

(** ** Tokens *)
Lemma leaves_in_group d ts t : In t (leaves ts) -> In t (leaves [TGroup d ts]).
Proof. intros H. unfold leaves in *. cbn [flat_map leaves1]. rewrite app_nil_r. exact H. Qed.
Lemma substituted_app O f a b : substituted O f (a ++ b) = substituted O f a ++ substituted O f b.
Proof. unfold substituted, replaced_stream. apply flat_map_app. Qed.
Lemma substituted_inert O g names v : inert O names v -> (forall x, ~ In x names -> g x = None) -> substituted O g (to_tokens v) = to_tokens v.
Proof.
  intros (H1 & H2 & _) Hg. apply substituted_unchanged; [intros x Hx; apply Hg, H1, Hx|]. intros l s p Hl Hp.
  destruct (H2 l Hl) as [E|(s' & -> & Hn & E)]; [congruence|]. rewrite E in Hp. injection Hp as <- _. rewrite format_no_percent by exact Hn. reflexivity.
Qed.
Lemma substituted_twice O f g names : reads_back O -> (forall x v, f x = Some v -> inert O names v) -> (forall x, ~ In x names -> g x = None) ->
  forall ts, plain_strings O ts -> substituted O g (substituted O f ts) = substituted O (then_ f g) ts.
Proof.
  intros Hrb Hf Hg.
  assert (H1 : forall t, plain_strings O [t] -> substituted O g (replaced (tokens_of f) (literal_of O f) t) = replaced (tokens_of (then_ f g)) (literal_of O (then_ f g)) t).
  { induction t as [x|c j|l|d ts IH] using tt_ind'; intros Hp; cbn [replaced].
    - unfold tokens_of at 1 2, then_. destruct (f x) as [v|] eqn:E; cbn [option_map]; [eapply substituted_inert; [eapply Hf, E|exact Hg]|].
      unfold substituted, replaced_stream. cbn [flat_map replaced]. rewrite app_nil_r. unfold tokens_of. destruct (g x); reflexivity.
    - reflexivity.
    - unfold literal_of at 1 2. destruct (parse_lit_str O [TLit l]) as [[v p]|] eqn:E.
      + unfold substituted, replaced_stream. cbn [flat_map replaced]. unfold literal_of at 1. rewrite Hrb, app_nil_r. rewrite format_twice; [reflexivity| |].
        * intros x w Hw. apply (Hf x w Hw).
        * eapply Hp; [left; reflexivity|exact E].
      + unfold substituted, replaced_stream. cbn [flat_map replaced]. unfold literal_of at 1. rewrite E. reflexivity.
    - unfold substituted, replaced_stream. cbn [flat_map replaced]. rewrite app_nil_r. do 2 f_equal.
      assert (Hp' : plain_strings O ts) by (intros l v p Hl; apply Hp, leaves_in_group, Hl). clear Hp. induction IH as [|t ts Ht _ IHl]; [reflexivity|]. cbn [flat_map]. rewrite flat_map_app, IHl.
      + f_equal. apply Ht. intros l v p Hl. apply (Hp' l v p). unfold leaves in *. cbn [flat_map] in *. rewrite app_nil_r in Hl. apply in_app_iff. left. exact Hl.
      + intros l v p Hl. apply (Hp' l v p). unfold leaves in *. cbn [flat_map] in *. apply in_app_iff. right. exact Hl. }
  induction ts as [|t ts IH]; intros Hp; [reflexivity|]. unfold substituted in *. unfold replaced_stream at 2 3. cbn [flat_map]. fold (replaced_stream (tokens_of f) (literal_of O f) ts). fold (replaced_stream (tokens_of (then_ f g)) (literal_of O (then_ f g)) ts).
  rewrite replaced_app. rewrite IH.
  - f_equal. apply H1. intros l v p Hl. apply (Hp l v p). unfold leaves in *. cbn [flat_map] in *. rewrite app_nil_r in Hl. apply in_app_iff. left. exact Hl.
  - intros l v p Hl. apply (Hp l v p). unfold leaves in *. cbn [flat_map] in *. apply in_app_iff. right. exact Hl.
Qed.

Lemma replaced_ext al al' nl nl' us : (forall x, al x = al' x) -> (forall l, nl l = nl' l) -> replaced_stream al nl us = replaced_stream al' nl' us.
Proof.
  intros Ha Hn.
  assert (H1 : forall t, replaced al nl t = replaced al' nl' t).
  { induction t as [x|c j|l|d l IH] using tt_ind'; cbn [replaced]; [rewrite Ha; reflexivity|reflexivity|rewrite Hn; reflexivity|].
    do 2 f_equal. induction IH as [|t l Ht _ IH]; [reflexivity|]. cbn [flat_map]. rewrite Ht, IH. reflexivity. }
  induction us as [|t us IH]; [reflexivity|]. unfold replaced_stream in *. cbn [flat_map]. rewrite H1, IH. reflexivity.
Qed.
Lemma format_ext O f g v : (forall x, f x = g x) -> format_string O f v = format_string O g v.
Proof.
  intros H. destruct (every_string_has_pieces v) as (ps & tail & -> & Hw). rewrite !format_meaning by assumption. unfold SpecFormat.meaning. f_equal. f_equal. apply map_ext. intros p.
  destruct p; try reflexivity. cbn [meaning1]. unfold vo. rewrite H. reflexivity.
Qed.
Lemma substituted_ext O f g ts : (forall x, f x = g x) -> substituted O f ts = substituted O g ts.
Proof.
  intros H. apply replaced_ext; intros z; [unfold tokens_of; rewrite H; reflexivity|]. unfold literal_of. destruct (parse_lit_str O [TLit z]) as [[v q]|]; [|reflexivity]. rewrite (format_ext O f g v H). reflexivity.
Qed.
Lemma nodup_apart {A} (a b : list A) x : NoDup (a ++ b) -> In x a -> In x b -> False.
Proof. induction a as [|y a IH]; intros Hn Ha Hb; [destruct Ha|]. inversion Hn as [|? ? H1 H2]; subst. destruct Ha as [->|Ha]; [apply H1, in_app_iff; auto|exact (IH H2 Ha Hb)]. Qed.
Lemma assoc_str_some_in {A} x (l : list (str * A)) v : assoc_str x l = Some v -> In (x, v) l.
Proof. induction l as [|[y w] l IH]; [discriminate|]. cbn [assoc_str]. destruct (str_eqb x y) eqn:E; [|right; auto]. intros H. injection H as ->. apply str_eqb_eq in E as ->. left. reflexivity. Qed.

(** ** Definitions *)
Lemma assoc_app x (a b : list (str * value)) : assoc_str x (a ++ b) = then_ (fun x => assoc_str x a) (fun x => assoc_str x b) x.
Proof. unfold then_. induction a as [|[y v] a IH]; [reflexivity|]. cbn [app assoc_str]. destruct (str_eqb x y); [reflexivity|exact IH]. Qed.
Lemma bindings_apart O env i1 i2 bs : bindings O env (i1 ++ i2) = Ok bs ->
  (forall a b, In a i1 -> In b i2 -> ~ In (fst a) (mentions (snd b))) ->
  exists b1 b2, bindings O env i1 = Ok b1 /\ bindings O env i2 = Ok b2 /\ bs = b1 ++ b2.
Proof.
  intros H Ha. unfold bindings in *. apply bind_Ok in H as (t & H & H2). pose proof (elab_items_NoDup _ _ _ _ H) as (Hnd & _).
  rewrite elab_items_app in H. apply bind_Ok in H as (t1 & H1 & H). apply bind_Ok in H as (t2 & H3 & H). injection H as <-.
  rewrite run_items_app in H2. apply bind_Ok in H2 as (b1 & Hb1 & H2). apply bind_Ok in H2 as (b2 & Hb2 & H2). injection H2 as <-.
  set (S := fun x => ~ In x (map fst i1)).
  assert (HS : Forall (fun it => S (fst it) /\ forall x, In x (mentions (snd it)) -> S x) i2).
  { apply Forall_forall. intros b Hb. split.
    - intros Hin. rewrite map_app in Hnd. eapply nodup_apart; [exact Hnd|exact Hin|]. apply in_map, Hb.
    - intros x Hx Hin. apply in_map_iff in Hin as (a & <- & Hin). exact (Ha a b Hin Hb Hx). }
  rewrite (elab_items_ext S env i2 (tenv_of t1 ++ []) [] HS) in H3.
  2:{ intros x Hx. rewrite app_nil_r. apply assoc_str_None. unfold tenv_of. rewrite map_rev, <- in_rev, map_map. intros Hin. apply Hx. rewrite <- (elab_items_names _ _ _ _ H1). exact Hin. }
  rewrite (run_items_ext S O (e_seed env) t2 (rev b1 ++ []) []) in Hb2.
  2:{ eapply elab_items_mentions; [exact H3|]. eapply Forall_impl; [|exact HS]. cbn. intros it (_ & Hm). exact Hm. }
  2:{ intros x Hx. rewrite app_nil_r. apply assoc_str_None. rewrite map_rev, <- in_rev. intros Hin. apply Hx. rewrite <- (elab_items_names _ _ _ _ H1), <- (run_items_names _ _ _ _ _ Hb1). exact Hin. }
  exists b1, b2. rewrite H1. cbn [bind]. rewrite Hb1, H3. cbn [bind]. rewrite Hb2. auto.
Qed.

(** ** Rounds *)
Lemma all_matched_from ls : forall c items it, In c (nested_loops (map loop_values ls)) -> all_matched (map loop_pattern ls) c = Some items -> In it items ->
  exists l, In l ls /\ In (fst it) (pattern_aliases (loop_pattern l)) /\ In (snd it) (loop_exprs l).
Proof.
  induction ls as [|l ls IH]; intros c items it Hc H Hi.
  - destruct c; cbn in H; injection H as <-; destruct Hi.
  - cbn [map nested_loops] in Hc. apply in_flat_map in Hc as (v & Hv & Hc). apply in_map_iff in Hc as (r & <- & Hr). cbn [map all_matched] in H.
    destruct (matched (loop_pattern l) v) as [a|] eqn:Ea; [|discriminate]. destruct (all_matched _ r) as [b|] eqn:Eb; [|discriminate]. injection H as <-.
    apply in_app_iff in Hi as [Hi|Hi].
    + destruct (matched_from _ _ _ _ Ea Hi) as (H1 & H2). exists l. split; [left; reflexivity|]. split; [exact H1|]. unfold loop_exprs. apply in_flat_map. eauto.
    + destruct (IH r b it Hr Eb Hi) as (l' & H1 & H2). exists l'. split; [right; exact H1|exact H2].
Qed.
Definition fits (ls : list loop_item) : list (option (list spec_item)) := map (all_matched (map loop_pattern ls)) (nested_loops (map loop_values ls)).
Lemma proper_fronts {B} (ast : raw_ast B) : proper ast -> fronts ast = fits (loops_of ast).
Proof. unfold proper, fronts, fits, loops_of. destruct (ast_loops ast) as [[|l ls]|]; [congruence|reflexivity|reflexivity]. Qed.
Definition both (a b : option (list spec_item)) : option (list spec_item) := match a, b with Some x, Some y => Some (x ++ y) | _, _ => None end.
Lemma fits_app ls ls' : fits (ls ++ ls') = flat_map (fun a => map (both a) (fits ls')) (fits ls).
Proof.
  unfold fits. rewrite !map_app, nested_app, map_flat_map, flat_map_map. assert (H : forall c, In c (nested_loops (map loop_values ls)) -> List.length c = List.length ls) by (intros c Hc; apply nested_length in Hc; rewrite map_length in Hc; exact Hc).
  induction (nested_loops (map loop_values ls)) as [|c l IH]; [reflexivity|]. cbn [flat_map]. rewrite IH by (intros; apply H; right; assumption). f_equal. rewrite !map_map. apply map_ext. intros r.
  apply all_matched_app. rewrite map_length. apply H. left. reflexivity.
Qed.
Lemma flat_loops {B} (outer inner ast : raw_ast B) : proper outer -> proper inner -> flattened outer inner ast -> proper ast /\ loops_of ast = loops_of outer ++ loops_of inner.
Proof.
  unfold proper, flattened, loops_of. intros H1 H2 (-> & _). destruct (ast_loops outer) as [[|l ls]|], (ast_loops inner) as [[|l' ls']|]; cbn [joined_loops]; try congruence; split; try discriminate; try reflexivity;
    try (cbn; rewrite app_nil_r; reflexivity).
Qed.
Lemma fits_from ls items it : In (Some items) (fits ls) -> In it items -> exists l, In l ls /\ In (fst it) (pattern_aliases (loop_pattern l)) /\ In (snd it) (loop_exprs l).
Proof. intros H Hi. apply in_map_iff in H as (c & E & Hc). eapply all_matched_from; eassumption. Qed.

(** ** One use in another *)
Section Nest.
Context (O : oracles) (env : environment) (ts : list tt) (names : list str).
Context (Hrb : reads_back O) (Hts : plain_strings O ts).
Lemma nested_round x y d1 d2 b1 c : 
  (forall a b, In a (x ++ d1) -> In b (y ++ d2) -> ~ In (fst a) (mentions (snd b))) ->
  (forall a b, In a d1 -> In b y -> ~ In (fst b) (mentions (snd a))) ->
  (forall b, In b (y ++ d2) -> In (fst b) names) ->
  bindings O env (x ++ d1) = Ok b1 -> (forall b, In b b1 -> inert O names (snd b)) ->
  round_of O env ts ((x ++ y) ++ d1 ++ d2) = Ok c ->
  round_of O env (substituted O (fun z => assoc_str z b1) ts) (y ++ d2) = Ok c.
Proof.
  intros Ha Hd Hn Hb Hi H. unfold round_of in *. apply bind_Ok in H as (bs & Hbs & H). injection H as <-.
  assert (Hr : rearranged ((x ++ y) ++ d1 ++ d2) ((x ++ d1) ++ (y ++ d2))).
  { rewrite <- !app_assoc. apply rearranged_app, rearranged_blocks. intros a b Hay Hbd. split.
    - apply Hd; assumption.
    - apply Ha; apply in_app_iff; auto. }
  destruct (rearranged_bindings _ _ _ _ Hr _ Hbs) as (bs' & Hbs' & _ & Hl). destruct (bindings_apart _ _ _ _ _ Hbs' Ha) as (b1' & b2 & H1 & H2 & ->). rewrite Hb in H1. injection H1 as <-.
  rewrite H2. cbn [bind]. f_equal. rewrite (substituted_twice O (fun z => assoc_str z b1) (fun z => assoc_str z b2) names Hrb); [| | |exact Hts].
  - apply substituted_ext. intros w. rewrite <- assoc_app. symmetry. apply Hl.
  - intros z v Hz. apply assoc_str_some_in in Hz. exact (Hi _ Hz).
  - intros z Hz. apply assoc_str_None. intros Hin. apply Hz. rewrite (bindings_names O env _ _ H2) in Hin. apply in_map_iff in Hin as (b & <- & Hin). apply Hn, Hin.
Qed.

Lemma mapM_app_ok {A B} (f : A -> res B) l l' r : mapM f (l ++ l') = Ok r -> exists a b, mapM f l = Ok a /\ mapM f l' = Ok b /\ r = a ++ b.
Proof. rewrite mapM_app. intros H. apply bind_Ok in H as (a & Ha & H). apply bind_Ok in H as (b & Hb & H). injection H as <-. eauto. Qed.
Lemma nested_rounds rs1 rs2 d1 d2 :
  (forall x y, In x rs1 -> In y rs2 ->
    (forall a b, In a (x ++ d1) -> In b (y ++ d2) -> ~ In (fst a) (mentions (snd b))) /\
    (forall a b, In a d1 -> In b y -> ~ In (fst b) (mentions (snd a))) /\ (forall b, In b (y ++ d2) -> In (fst b) names)) ->
  forall bss codes, mapM (bindings O env) (map (fun x => x ++ d1) rs1) = Ok bss -> (forall bs b, In bs bss -> In b bs -> inert O names (snd b)) ->
  mapM (round_of O env ts) (flat_map (fun x => map (fun y => (x ++ y) ++ d1 ++ d2) rs2) rs1) = Ok codes ->
  exists css, Forall2 (fun bs cs => mapM (round_of O env (substituted O (fun z => assoc_str z bs) ts)) (map (fun y => y ++ d2) rs2) = Ok cs) bss css /\ codes = concat css.
Proof.
  induction rs1 as [|x rs1 IH]; intros Hc bss codes Hb Hi H; cbn [map flat_map mapM] in *.
  - injection Hb as <-. injection H as <-. exists []. split; [constructor|reflexivity].
  - apply bind_Ok in Hb as (b1 & Hb1 & Hb). apply bind_Ok in Hb as (br & Hbr & Hb). injection Hb as <-. apply mapM_app_ok in H as (cs & cr & Hcs & Hcr & ->).
    destruct (IH (fun x' y Hx Hy => Hc x' y (or_intror Hx) Hy) br cr Hbr (fun bs b Hbs => Hi bs b (or_intror Hbs)) Hcr) as (css & HF & ->). exists (cs :: css). split; [|reflexivity]. constructor; [|exact HF].
    clear IH HF Hcr Hbr. revert cs Hcs. assert (Hc' := fun y => Hc x y (or_introl eq_refl)). clear Hc. induction rs2 as [|y rs2 IH]; intros cs Hcs; cbn [map mapM] in *; [exact Hcs|].
    apply bind_Ok in Hcs as (c & Hcc & Hcs). apply bind_Ok in Hcs as (r & Hr & Hcs). injection Hcs as <-. destruct (Hc' y (or_introl eq_refl)) as (C1 & C2 & C3).
    rewrite (nested_round x y d1 d2 b1 c C1 C2 C3 Hb1 (fun b => Hi b1 b (or_introl eq_refl)) Hcc). cbn [bind]. rewrite (IH (fun y' Hy => Hc' y' (or_intror Hy)) r Hr). reflexivity.
Qed.
End Nest.

(** ** Uses *)
Section NestedUses.
Context (O : oracles) (P : parsers) (Y : syntax).

Lemma erased_meaning s s' k ast : s = s' \/ hash_free ast ->
  meaning O (new_initialized O s k) (fun ts => ts) ast =
  match all_some (rounds (erase_ast ast)) with
  | Some rs => let! codes := mapM (round_of O (new_initialized O s' 0) (code ast)) rs in Ok (concat codes)
  | None => Err TypeError
  end.
Proof.
  intros Hh. unfold meaning, erase_ast. rewrite rounds_map, all_some_map. destruct (all_some (rounds ast)) as [rs|] eqn:Er; [|reflexivity]. cbn [option_map].
  assert (E : mapM (round_code O (new_initialized O s k) (ast_block ast)) rs = mapM (round_of O (new_initialized O s' 0) (code ast)) (map (map_items erase) rs)).
  { assert (Hin : forall items, In items rs -> s = s' \/ Forall (calls_known no_hash) (map snd items)).
    { intros items Hi. destruct Hh as [Hh|Hh]; [left; exact Hh|right]. pose proof (expand_rounds ast) as He. rewrite Er in He. destruct He as (rws & He & HF).
      assert (Hr : exists rw, In rw rws /\ spec_items (fst rw) = items).
      { clear -HF Hi. induction HF as [|a rw rs rws (_ & Hw) _ IH]; [destruct Hi|]. destruct Hi as [->|Hi]; [exists rw; split; [left; reflexivity|exact Hw]|].
        destruct (IH Hi) as (rw' & H1 & H2). exists rw'. split; [right; exact H1|exact H2]. }
      destruct Hr as (rw & Hrw & <-). exact (part_Forall _ _ _ (expand_part _ _ _ He Hrw) Hh). }
    clear Er. induction rs as [|items rs IH]; [reflexivity|]. cbn [map mapM]. rewrite IH by (intros; apply Hin; right; assumption).
    unfold round_code at 1, round_of at 1. fold (code ast).
    assert (Eb : bindings O (new_initialized O s k) items = bindings O (new_initialized O s' 0) (map_items erase items)).
    { rewrite <- (erased_bindings O s' k items (map_items erase items)) by (symmetry; apply erase_twice). destruct (Hin items (or_introl eq_refl)) as [->|Hk]; [reflexivity|apply bindings_seed, Hk]. }
    rewrite Eb. reflexivity. }
  rewrite E. clear E. destruct (mapM (round_of O _ _) _) as [codes|e|m]; cbn [bind]; [rewrite map_id|..]; reflexivity.
Qed.

Lemma quiet_code uses i u ast ts : faithful O (reparse Y) -> covers Y -> nth_error uses i = Some u ->
  p_ast (inv_parsed (invocation_for O P u)) = Ok (Some ast) -> raised (invocation_for O P u) = [] ->
  (forall x, In x item_keywords -> ~ In x (ast_aliases ast)) -> nth_error (expand_uses O P Y uses) i = Some (Code ts) ->
  meaning O (new_initialized O (u_seed u) (u_first_id u)) (fun ts => ts) ast = Ok ts.
Proof. intros H1 H2 H3 H4 H5 H6 H. destruct (use_meaning_quiet O P Y uses i u ast H1 H2 H3 H4 H5 H6) as (o & Ho & Hm). rewrite H in Ho. injection Ho as <-. exact Hm. Qed.

Lemma erased_exprs {B} (ast : raw_ast B) : ast_exprs (erase_ast ast) = map erase (ast_exprs ast).
Proof.
  unfold ast_exprs. cbn [erase_ast map_ast ast_loops ast_spec]. rewrite map_app. f_equal; [|destruct (ast_spec ast); [|reflexivity]; cbn; unfold map_items; rewrite !map_map; reflexivity].
  destruct (ast_loops ast) as [ls|]; [|reflexivity]. cbn [option_map]. rewrite flat_map_map, map_flat_map. apply flat_map_ext. intros l. unfold loop_exprs. cbn [map_loop loop_values]. rewrite flat_map_map, map_flat_map. apply flat_map_ext.
  assert (Ht : forall t, tuple_exprs (map_tuple_value erase t) = map erase (tuple_exprs t)).
  { induction t as [v|l' IH] using tuple_ind'; [reflexivity|]. cbn [map_tuple_value tuple_exprs]. rewrite flat_map_map, map_flat_map. induction IH as [|t l' Ht _ IH]; [reflexivity|]. cbn [flat_map]. rewrite Ht, IH. reflexivity. }
  intros [e|t]; [reflexivity|]. cbn [map_source source_exprs]. unfold map_tuple. rewrite flat_map_map, map_flat_map. apply flat_map_ext, Ht.
Qed.
Lemma erase_erase e : erase (erase e) = erase e.
Proof.
  induction e as [id v|id name args raw IH] using expr_ind'; [reflexivity|]. cbn [erase]. f_equal.
  - rewrite map_map. induction IH as [|a l H _ IHl]; [reflexivity|]. cbn [map]. rewrite H, IHl. reflexivity.
  - destruct raw as [[r ts]|]; reflexivity.
Qed.
Lemma erased_hash_free {B} (ast : raw_ast B) : hash_free (erase_ast ast) <-> hash_free ast.
Proof.
  unfold hash_free. rewrite erased_exprs, Forall_map. split; intros H; (eapply Forall_impl; [|exact H]); intros e; apply erase_known; [|symmetry]; apply erase_erase.
Qed.
Lemma own_exprs {B} (ast : raw_ast B) : ast_exprs ast = flat_map loop_exprs (loops_of ast) ++ map snd (own_items ast).
Proof. unfold ast_exprs, loops_of, own_items. destruct (ast_loops ast), (ast_spec ast); reflexivity. Qed.
Lemma own_aliases {B} (ast : raw_ast B) : ast_aliases ast = flat_map (fun l => pattern_aliases (loop_pattern l)) (loops_of ast) ++ map fst (own_items ast).
Proof. unfold ast_aliases, loops_of. destruct (ast_loops ast); reflexivity. Qed.
Lemma erased_aliases {B} (ast : raw_ast B) : ast_aliases (erase_ast ast) = ast_aliases ast.
Proof.
  unfold ast_aliases. rewrite erased_own. f_equal; [|unfold erase_items; rewrite map_map; reflexivity]. cbn [erase_ast map_ast ast_loops]. destruct (ast_loops ast) as [ls|]; [|reflexivity]. cbn [option_map]. rewrite flat_map_map. reflexivity.
Qed.

Lemma rounds_header {B} (a b : raw_ast B) : ast_loops a = ast_loops b -> own_items a = own_items b -> rounds a = rounds b.
Proof. intros H1 H2. unfold rounds. rewrite H1, H2. reflexivity. Qed.
Lemma codes_sequence us cs : forall c, outputs_in_sequence us = Code c -> Forall2 (fun o x => forall y, o = Code y -> y = x) us cs -> c = concat cs.
Proof.
  revert cs. induction us as [|o us IH]; intros cs c H HF; inversion HF as [|? x ? cs' Ho HF']; subst; [injection H as <-; reflexivity|]. cbn [outputs_in_sequence] in H.
  destruct o as [a| | |]; try discriminate. destruct (outputs_in_sequence us) as [b| | |] eqn:E; try discriminate. injection H as <-. cbn [concat]. rewrite (Ho a eq_refl), (IH cs' b eq_refl HF'). reflexivity.
Qed.

Lemma all_some_in {A} (l : list (option A)) rs : all_some l = Some rs -> l = map Some rs.
Proof.
  revert rs. induction l as [|[a|] l IH]; intros rs H; cbn [all_some] in H; [injection H as <-; reflexivity| |discriminate]. destruct (all_some l) as [r|]; [|discriminate]. injection H as <-. cbn [map]. rewrite (IH r eq_refl). reflexivity.
Qed.
Lemma all_some_of {A} (l : list A) : all_some (map Some l) = Some l.
Proof. induction l as [|a l IH]; [reflexivity|]. cbn [map all_some]. rewrite IH. reflexivity. Qed.
Lemma all_some_inside {A} (l l' : list (option A)) rs : all_some (l ++ l') = Some rs -> exists r, all_some l = Some r.
Proof.
  revert rs. induction l as [|[a|] l IH]; intros rs H; cbn [app all_some] in *; [eauto| |discriminate]. destruct (all_some (l ++ l')) as [r|]; [|discriminate]. destruct (IH r eq_refl) as (r' & ->). cbn. eauto.
Qed.
Lemma all_some_both x l rs : all_some (map (both (Some x)) l) = Some rs -> exists r, l = map Some r.
Proof.
  revert rs. induction l as [|[y|] l IH]; intros rs H; cbn [map both all_some] in *; [exists []; reflexivity| |discriminate]. destruct (all_some (map _ l)) as [r|]; [|discriminate]. destruct (IH r eq_refl) as (r' & ->). exists (y :: r'). reflexivity.
Qed.
Lemma flat_rounds {B} (outer inner ast : raw_ast B) rs1 rs : proper outer -> proper inner -> flattened outer inner ast ->
  all_some (rounds outer) = Some rs1 -> all_some (rounds ast) = Some rs ->
  exists f1, fits (loops_of outer) = map Some f1 /\ rs1 = map (fun x => x ++ own_items outer) f1 /\
    ((f1 = [] /\ rs = []) \/ exists f2, fits (loops_of inner) = map Some f2 /\ rs = flat_map (fun x => map (fun y => (x ++ y) ++ own_items outer ++ own_items inner) f2) f1).
Proof.
  intros P1 P2 Hf H1 H3. destruct (flat_loops _ _ _ P1 P2 Hf) as (P3 & L3). destruct Hf as (_ & O3). rewrite rounds_fronts, all_some_map, proper_fronts in H1, H3 by assumption. rewrite O3, L3, fits_app in H3.
  destruct (all_some (fits (loops_of outer))) as [f1|] eqn:E1; [|discriminate]. injection H1 as <-. apply all_some_in in E1. exists f1. split; [exact E1|split; [reflexivity|]]. rewrite E1 in H3.
  destruct f1 as [|x f1]; [left; split; [reflexivity|injection H3 as <-; reflexivity]|right].
  destruct (all_some (flat_map _ _)) as [r|] eqn:E; [|discriminate]. injection H3 as <-. cbn [map flat_map] in E. destruct (all_some_inside _ _ _ E) as (r' & E'). destruct (all_some_both _ _ _ E') as (f2 & E2). exists f2. split; [exact E2|]. clear E'.
  rewrite E2 in E. change (map (both (Some x)) (map Some f2) ++ flat_map (fun a => map (both a) (map Some f2)) (map Some f1)) with (flat_map (fun a => map (both a) (map Some f2)) (map Some (x :: f1))) in E.
  rewrite flat_map_map in E. rewrite (flat_map_ext _ (fun x => map Some (map (fun y => x ++ y) f2))) in E by (intros a; rewrite !map_map; reflexivity). rewrite <- map_flat_map, all_some_of in E. injection E as <-.
  set (g := fun a : list spec_item => map (fun b => a ++ b) f2). change (map (fun f => f ++ own_items outer ++ own_items inner) (flat_map g (x :: f1)) = flat_map (fun a => map (fun y => (a ++ y) ++ own_items outer ++ own_items inner) f2) (x :: f1)). unfold g. rewrite map_flat_map. apply flat_map_ext. intros a. rewrite map_map. reflexivity.
Qed.
Lemma flattened_parts {B} (outer inner ast : raw_ast B) : proper outer -> proper inner -> flattened outer inner ast ->
  (forall e, In e (ast_exprs outer) -> In e (ast_exprs ast)) /\ (forall x, In x (ast_aliases outer) -> In x (ast_aliases ast)) /\
  (forall e, In e (ast_exprs inner) -> In e (ast_exprs ast)) /\ (forall x, In x (ast_aliases inner) -> In x (ast_aliases ast)).
Proof.
  intros P1 P2 Hf. destruct (flat_loops _ _ _ P1 P2 Hf) as (_ & L). destruct Hf as (_ & O3). rewrite !own_exprs, !own_aliases, L, O3, !flat_map_app, !map_app.
  split; [|split; [|split]]; intros e H; rewrite !in_app_iff in *; tauto.
Qed.
Lemma staged_rounds {B} (outer inner : raw_ast B) f1 f2 : staged outer inner -> fits (loops_of outer) = map Some f1 -> fits (loops_of inner) = map Some f2 ->
  forall x y, In x f1 -> In y f2 ->
    (forall a b, In a (x ++ own_items outer) -> In b (y ++ own_items inner) -> ~ In (fst a) (mentions (snd b))) /\
    (forall a b, In a (own_items outer) -> In b y -> ~ In (fst b) (mentions (snd a))) /\ (forall b, In b (y ++ own_items inner) -> In (fst b) (ast_aliases inner)).
Proof.
  intros (S1 & S2) E1 E2 x y Hx Hy.
  assert (Hx' : In (Some x) (fits (loops_of outer))) by (rewrite E1; apply in_map, Hx). assert (Hy' : In (Some y) (fits (loops_of inner))) by (rewrite E2; apply in_map, Hy).
  assert (A : forall b, In b (y ++ own_items inner) -> In (fst b) (ast_aliases inner) /\ In (snd b) (ast_exprs inner)).
  { intros b Hb. rewrite own_aliases, own_exprs, !in_app_iff. apply in_app_iff in Hb as [Hb|Hb]; [|split; right; apply in_map, Hb].
    destruct (fits_from _ _ _ Hy' Hb) as (l & Hl & Ha & He). split; left; apply in_flat_map; exists l; auto. }
  split; [|split].
  - intros a b Ha Hb. apply S1; [|apply A, Hb]. rewrite own_aliases, in_app_iff. apply in_app_iff in Ha as [Ha|Ha]; [|right; apply in_map, Ha].
    destruct (fits_from _ _ _ Hx' Ha) as (l & Hl & Hal & _). left. apply in_flat_map. exists l. auto.
  - intros a b Ha Hb. destruct (fits_from _ _ _ Hy' Hb) as (l & Hl & Hal & _). exact (S2 l _ a Hl Hal Ha).
  - intros b Hb. apply A, Hb.
Qed.

Lemma mapM_round_of env ts rs codes : mapM (round_of O env ts) rs = Ok codes ->
  exists bss, mapM (bindings O env) rs = Ok bss /\ codes = map (fun bs => substituted O (fun x => assoc_str x bs) ts) bss /\ Forall2 (fun items bs => map fst bs = map fst items) rs bss.
Proof.
  revert codes. induction rs as [|items rs IH]; intros codes H; cbn [mapM] in *; [injection H as <-; exists []; repeat split; constructor|].
  apply bind_Ok in H as (c & Hc & H). apply bind_Ok in H as (cs & Hcs & H). injection H as <-. unfold round_of in Hc. apply bind_Ok in Hc as (bs & Hb & Hc). injection Hc as <-.
  destruct (IH cs Hcs) as (bss & H1 & -> & HF). exists (bs :: bss). rewrite Hb. cbn [bind]. rewrite H1. repeat split. constructor; [exact (bindings_names O env items bs Hb)|exact HF].
Qed.

Lemma map_some_inj {A} (l l' : list A) : map Some l = map Some l' -> l = l'.
Proof. revert l'. induction l as [|a l IH]; intros [|b l'] H; cbn [map] in H; try discriminate; [reflexivity|]. injection H as -> H. rewrite (IH l' H). reflexivity. Qed.
Lemma Forall2_from_nth {A B} (R : A -> B -> Prop) l l' : List.length l' = List.length l -> (forall n a b, nth_error l n = Some a -> nth_error l' n = Some b -> R a b) -> Forall2 R l l'.
Proof.
  revert l'. induction l as [|a l IH]; intros [|b l'] Hl H; try discriminate; constructor; [apply (H 0); reflexivity|]. apply IH; [injection Hl as Hl; exact Hl|]. intros n. apply (H (S n)).
Qed.
Lemma Forall2_nth_l {A B} (R : A -> B -> Prop) l l' : Forall2 R l l' -> forall n a, nth_error l n = Some a -> exists b, nth_error l' n = Some b /\ R a b.
Proof. induction 1 as [|a b l l' Hab _ IH]; intros [|n] x Hx; try discriminate; [injection Hx as <-; exists b; split; [reflexivity|exact Hab]|exact (IH n x Hx)]. Qed.

Lemma expand_length us : List.length (expand_uses O P Y us) = List.length us.
Proof.
  unfold expand_uses. generalize (@None service). induction us as [|u us IH]; intros t; [reflexivity|]. cbn [map Interpreter.run]. destruct (compose_core _ _ _ _) as [t' o]. specialize (IH t'). destruct (Interpreter.run _ _ _ _) as [t'' os]. cbn [snd List.length] in *. rewrite IH. reflexivity.
Qed.

Theorem uses_in_turn uses i u outer c1 uses' k w flat c3 header :
  faithful O (reparse Y) -> covers Y -> reads_back O ->
  nth_error uses i = Some u -> p_ast (inv_parsed (invocation_for O P u)) = Ok (Some outer) -> raised (invocation_for O P u) = [] -> nth_error (expand_uses O P Y uses) i = Some (Code c1) ->
  nth_error uses' k = Some w -> p_ast (inv_parsed (invocation_for O P w)) = Ok (Some flat) -> raised (invocation_for O P w) = [] -> nth_error (expand_uses O P Y uses') k = Some (Code c3) ->
  u_seed u = u_seed w \/ hash_free flat ->
  (forall x, In x item_keywords -> ~ In x (ast_aliases flat)) ->
  proper (erase_ast outer) -> proper header -> flattened (erase_ast outer) header (erase_ast flat) ->
  exists bss, round_bindings O (new_initialized O (u_seed w) 0) (erase_ast outer) = Ok bss /\
    c1 = flat_map (fun bs => substituted O (fun x => assoc_str x bs) (code outer)) bss /\ (forall bs, In bs bss -> forall x, In x (map fst bs) -> In x (ast_aliases outer)) /\
    (staged (erase_ast outer) header -> plain_strings O (code flat) -> (forall bs b, In bs bss -> In b bs -> inert O (ast_aliases header) (snd b)) ->
     forall us c, Forall2 (remaining O P flat header (u_seed w)) bss us -> outputs_in_sequence (expand_uses O P Y us) = Code c -> c = c3).
Proof.
  intros Hfa Hco Hrb Hu Ha1 Hr1 Hc1 Hw Ha3 Hr3 Hc3 Hs Hk P1 P2 Hfl.
  destruct (flattened_parts _ _ _ P1 P2 Hfl) as (X1 & A1 & X2 & A2). rewrite (erased_aliases outer), (erased_aliases flat) in A1. rewrite (erased_aliases flat) in A2.
  assert (Hs1 : u_seed u = u_seed w \/ hash_free outer).
  { destruct Hs as [Hs|Hs]; [left; exact Hs|right]. apply erased_hash_free. apply erased_hash_free in Hs. unfold hash_free in *. rewrite Forall_forall in *. auto. }
  pose proof (quiet_code _ _ _ _ _ Hfa Hco Hu Ha1 Hr1 (fun x Hx Hin => Hk x Hx (A1 x Hin)) Hc1) as M1. rewrite (erased_meaning _ (u_seed w) _ _ Hs1) in M1.
  pose proof (quiet_code _ _ _ _ _ Hfa Hco Hw Ha3 Hr3 Hk Hc3) as M3. rewrite (erased_meaning _ (u_seed w) _ _ (or_introl eq_refl)) in M3.
  set (env := new_initialized O (u_seed w) 0) in *.
  destruct (all_some (rounds (erase_ast outer))) as [rs1|] eqn:E1; [|discriminate]. destruct (all_some (rounds (erase_ast flat))) as [rs3|] eqn:E3; [|discriminate].
  apply bind_Ok in M1 as (codes1 & M1 & H). injection H as <-. apply bind_Ok in M3 as (codes3 & M3 & H). injection H as <-.
  destruct (mapM_round_of _ _ _ _ M1) as (bss & Hb & -> & Hn). destruct (flat_rounds _ _ _ _ _ P1 P2 Hfl E1 E3) as (f1 & F1 & -> & F2).
  exists bss. split; [unfold round_bindings; rewrite E1; exact Hb|]. split.
  { rewrite flat_map_concat_map. reflexivity. }
  split.
  { intros bs Hin z Hz. clear -Hn Hin Hz F1. assert (Hf : forall f, In f f1 -> forall z, In z (map fst (f ++ own_items (erase_ast outer))) -> In z (ast_aliases outer)).
    { intros f Hf y Hi. rewrite <- erased_aliases, own_aliases. rewrite map_app in Hi. apply in_app_iff in Hi as [Hi|Hi]; apply in_app_iff; [left|right; exact Hi].
      apply in_map_iff in Hi as (it & Eit & Hit). assert (Hs : In (Some f) (fits (loops_of (erase_ast outer)))) by (rewrite F1; apply in_map, Hf).
      destruct (fits_from _ _ _ Hs Hit) as (l & Hl & Hal & _). rewrite Eit in Hal. apply in_flat_map. exists l. split; [exact Hl|exact Hal]. }
    clear F1. revert bss Hn Hin. induction f1 as [|f f1 IH]; intros bss Hn Hin; inversion Hn as [|? b ? bss' Hfb Hr]; subst; [destruct Hin|]. destruct Hin as [->|Hin].
    - apply (Hf f (or_introl eq_refl)). exact (eq_ind _ (fun l => In z l) Hz _ Hfb).
    - apply (IH (fun f H => Hf f (or_intror H)) bss' Hr Hin). }
  intros Hst Hpl Hin us c HF Hc.
  assert (Hi : Forall2 (fun bs o => forall y, o = Code y -> exists rs cs, rounds header = map Some rs /\ mapM (round_of O env (substituted O (fun x => assoc_str x bs) (code flat))) rs = Ok cs /\ y = concat cs) bss (expand_uses O P Y us)).
  { assert (Hnth : forall n bs o, nth_error bss n = Some bs -> nth_error (expand_uses O P Y us) n = Some o -> forall y, o = Code y ->
      exists rs cs, rounds header = map Some rs /\ mapM (round_of O env (substituted O (fun x => assoc_str x bs) (code flat))) rs = Ok cs /\ y = concat cs).
    { intros n bs o Hbs Ho y ->. destruct (Forall2_nth_l _ _ _ HF n bs Hbs) as (u' & Hu' & Hr' & Hs' & inner & Ha' & L' & O' & C').
      assert (Hal : ast_aliases inner = ast_aliases header). { rewrite <- erased_aliases, !own_aliases, O'. unfold loops_of. rewrite L'. reflexivity. }
      assert (Hex : ast_exprs (erase_ast inner) = ast_exprs header). { rewrite !own_exprs, O'. unfold loops_of. rewrite L'. reflexivity. }
      assert (Hs2 : u_seed u' = u_seed w \/ hash_free inner).
      { destruct Hs' as [Hs'|Hs']; [left; exact Hs'|right]. apply erased_hash_free. apply erased_hash_free in Hs'. unfold hash_free in *. rewrite Hex, Forall_forall in *. auto. }
      assert (Hk' : forall x, In x item_keywords -> ~ In x (ast_aliases inner)) by (intros x Hx Hin'; rewrite Hal in Hin'; exact (Hk x Hx (A2 x Hin'))).
      pose proof (quiet_code _ _ _ _ _ Hfa Hco Hu' Ha' Hr' Hk' Ho) as M2. rewrite (erased_meaning _ (u_seed w) _ _ Hs2) in M2. rewrite (rounds_header _ _ L' O') in M2. fold env in M2.
      destruct (all_some (rounds header)) as [rs|] eqn:E2; [|discriminate]. apply all_some_in in E2. apply bind_Ok in M2 as (cs & M2 & H). injection H as <-. rewrite C' in M2. exists rs, cs. split; [exact E2|split; [exact M2|reflexivity]]. }
    apply Forall2_from_nth; [rewrite expand_length; clear -HF; induction HF; [reflexivity|cbn; congruence]|exact Hnth]. }
  destruct F2 as [(-> & ->)|(f2 & F2 & ->)].
  { injection M3 as <-. cbn [map] in Hn. inversion Hn; subst. inversion HF; subst. injection Hc as <-. reflexivity. }
  destruct (nested_rounds O env (code flat) (ast_aliases header) Hrb Hpl f1 f2 _ _ (staged_rounds _ _ f1 f2 Hst F1 F2) bss codes3 Hb Hin M3) as (css & HC & ->).
  assert (Hrs : rounds header = map Some (map (fun y => y ++ own_items header) f2)). { rewrite rounds_fronts, proper_fronts by exact P2. rewrite F2, !map_map. reflexivity. }
  rewrite (codes_sequence _ (map (@concat _) css) c Hc).
  - clear. induction css as [|cs css IH]; [reflexivity|]. cbn [map concat]. rewrite IH, concat_app. reflexivity.
  - clear -HC Hi Hrs. revert HC Hi. generalize (expand_uses O P Y us). intros os HC. revert os. induction HC as [|bs cs bss css Hcs _ IH]; intros os Hi; inversion Hi as [|? o ? os' Ho Hos]; subst; cbn [map]; constructor; [|apply IH, Hos].
    intros y Hy. destruct (Ho y Hy) as (rs & cs' & R1 & R2 & ->). rewrite Hrs in R1. apply map_some_inj in R1. subst rs. pose proof (eq_trans (eq_sym Hcs) R2) as E. injection E as <-. reflexivity.
Qed.
Lemma staged_code j T bs : ~ In (txt "compose") (map fst bs) -> substituted O (fun x => assoc_str x bs) (inner_use j T) = inner_use j (substituted O (fun x => assoc_str x bs) T).
Proof.
  intros H. assert (E : assoc_str (txt "compose") bs = None) by (apply assoc_str_None, H).
  unfold inner_use, substituted, replaced_stream. cbn [map flat_map replaced]. unfold tokens_of at 1. rewrite E. reflexivity.
Qed.

Lemma flat_map_in {A B} (f g : A -> list B) l : (forall a, In a l -> f a = g a) -> flat_map f l = flat_map g l.
Proof. induction l as [|a l IH]; intros H; [reflexivity|]. cbn [flat_map]. rewrite (H a (or_introl eq_refl)), IH; [reflexivity|]. intros; apply H; right; assumption. Qed.
Lemma Forall2_weaken {A B} (R Q : A -> B -> Prop) l l' : (forall a b, R a b -> Q a b) -> Forall2 R l l' -> Forall2 Q l l'.
Proof. induction 2; constructor; auto. Qed.

Theorem nested_uses uses i u outer c1 uses' k w flat c3 header j T :
  faithful O (reparse Y) -> covers Y -> reads_back O ->
  nth_error uses i = Some u -> p_ast (inv_parsed (invocation_for O P u)) = Ok (Some outer) -> raised (invocation_for O P u) = [] -> nth_error (expand_uses O P Y uses) i = Some (Code c1) ->
  nth_error uses' k = Some w -> p_ast (inv_parsed (invocation_for O P w)) = Ok (Some flat) -> raised (invocation_for O P w) = [] -> nth_error (expand_uses O P Y uses') k = Some (Code c3) ->
  u_seed u = u_seed w \/ hash_free flat ->
  (forall x, In x item_keywords -> ~ In x (ast_aliases flat)) ->
  code outer = inner_use j T -> ~ In (txt "compose") (ast_aliases outer) ->
  proper (erase_ast outer) -> proper header -> flattened (erase_ast outer) header (erase_ast flat) ->
  exists bss, round_bindings O (new_initialized O (u_seed w) 0) (erase_ast outer) = Ok bss /\
    c1 = flat_map (fun bs => inner_use j (substituted O (fun x => assoc_str x bs) T)) bss /\
    (staged (erase_ast outer) header -> plain_strings O (code flat) -> (forall bs b, In bs bss -> In b bs -> inert O (ast_aliases header) (snd b)) ->
     forall us c, Forall2 (nested_in O P T flat header (u_seed w)) bss us -> outputs_in_sequence (expand_uses O P Y us) = Code c -> c = c3).
Proof.
  intros Hfa Hco Hrb Hu Ha1 Hr1 Hc1 Hw Ha3 Hr3 Hc3 Hs Hk Hcode Hcomp P1 P2 Hfl.
  destruct (uses_in_turn _ _ _ _ _ _ _ _ _ _ _ Hfa Hco Hrb Hu Ha1 Hr1 Hc1 Hw Ha3 Hr3 Hc3 Hs Hk P1 P2 Hfl) as (bss & Hb & -> & Hn & H). exists bss. split; [exact Hb|]. split.
  - apply flat_map_in. intros bs Hin. rewrite Hcode. apply staged_code. intros Hz. exact (Hcomp (Hn bs Hin _ Hz)).
  - intros Hst Hpl Hin us c HF. apply (H Hst Hpl Hin us c). eapply Forall2_weaken; [|exact HF]. intros bs u0 K. exact (proj2 K).
Qed.

(** An attribute below another. *)
Lemma stacked_code j T item bs : ~ In (txt "compose_item") (map fst bs) ->
  substituted O (fun x => assoc_str x bs) (attribute j T ++ item) = attribute j (substituted O (fun x => assoc_str x bs) T) ++ substituted O (fun x => assoc_str x bs) item.
Proof.
  intros H. assert (E : assoc_str (txt "compose_item") bs = None) by (apply assoc_str_None, H).
  unfold attribute, substituted, replaced_stream. rewrite flat_map_app. cbn [map flat_map replaced]. unfold tokens_of at 1. rewrite E. reflexivity.
Qed.
Theorem stacked_uses uses i u outer c1 uses' k w flat c3 header j T item :
  faithful O (reparse Y) -> covers Y -> reads_back O ->
  nth_error uses i = Some u -> p_ast (inv_parsed (invocation_for O P u)) = Ok (Some outer) -> raised (invocation_for O P u) = [] -> nth_error (expand_uses O P Y uses) i = Some (Code c1) ->
  nth_error uses' k = Some w -> p_ast (inv_parsed (invocation_for O P w)) = Ok (Some flat) -> raised (invocation_for O P w) = [] -> nth_error (expand_uses O P Y uses') k = Some (Code c3) ->
  u_seed u = u_seed w \/ hash_free flat ->
  (forall x, In x item_keywords -> ~ In x (ast_aliases flat)) ->
  code outer = attribute j T ++ item -> ~ In (txt "compose_item") (ast_aliases outer) ->
  proper (erase_ast outer) -> proper header -> flattened (erase_ast outer) header (erase_ast flat) ->
  exists bss, round_bindings O (new_initialized O (u_seed w) 0) (erase_ast outer) = Ok bss /\
    c1 = flat_map (fun bs => attribute j (substituted O (fun x => assoc_str x bs) T) ++ substituted O (fun x => assoc_str x bs) item) bss /\
    (staged (erase_ast outer) header -> plain_strings O (code flat) -> (forall bs b, In bs bss -> In b bs -> inert O (ast_aliases header) (snd b)) ->
     forall us c, Forall2 (stacked_in O P T item flat header (u_seed w)) bss us -> outputs_in_sequence (expand_uses O P Y us) = Code c -> c = c3).
Proof.
  intros Hfa Hco Hrb Hu Ha1 Hr1 Hc1 Hw Ha3 Hr3 Hc3 Hs Hk Hcode Hcomp P1 P2 Hfl.
  destruct (uses_in_turn _ _ _ _ _ _ _ _ _ _ _ Hfa Hco Hrb Hu Ha1 Hr1 Hc1 Hw Ha3 Hr3 Hc3 Hs Hk P1 P2 Hfl) as (bss & Hb & -> & Hn & H). exists bss. split; [exact Hb|]. split.
  - apply flat_map_in. intros bs Hin. rewrite Hcode. apply stacked_code. intros Hz. exact (Hcomp (Hn bs Hin _ Hz)).
  - intros Hst Hpl Hin us c HF. apply (H Hst Hpl Hin us c). eapply Forall2_weaken; [|exact HF]. intros bs u0 K. exact (proj2 K).
Qed.
End NestedUses.
