(** Proofs about error texts. *)
From Coq Require Import String.
From Verif Require Import Base BaseFacts Token Types Values Ast Env FormatString Resolve Eval SpecElab SpecFunctions Messages SpecMessages
  ElabProofs ElabFacts BuiltinFacts TypesProofs Concrete.
Open Scope list_scope.

(** ** Texts with separators *)
Lemma split_at (c : chr) a : forall a' b b', ~ In c a -> ~ In c a' -> a ++ c :: b = a' ++ c :: b' -> a = a' /\ b = b'.
Proof.
  induction a as [|x a IH]; intros [|x' a'] b b' Ha Ha' H; cbn in H.
  - injection H as <-. auto.
  - injection H as <- _. destruct Ha'. left. reflexivity.
  - injection H as -> _. destruct Ha. left. reflexivity.
  - injection H as <- H. destruct (IH a' b b') as [-> ->]; auto; cbn in Ha, Ha'; tauto.
Qed.
Lemma not_split (c : chr) a b b' : ~ In c a -> a <> b ++ c :: b'.
Proof. intros H ->. apply H. apply in_or_app. right. left. reflexivity. Qed.

Lemma join_inj (c : chr) r (l : list str) : forall l',
  (forall x, In x l -> x <> [] /\ ~ In c x) -> (forall x, In x l' -> x <> [] /\ ~ In c x) ->
  join (c :: r) l = join (c :: r) l' -> l = l'.
Proof.
  induction l as [|x l IH]; intros [|x' l'] Hl Hl' H.
  - reflexivity.
  - destruct (Hl' x' (or_introl eq_refl)) as [Hx _]. destruct l'; cbn in H; [congruence|]. destruct x'; [congruence|discriminate].
  - destruct (Hl x (or_introl eq_refl)) as [Hx _]. destruct l; cbn in H; [congruence|]. destruct x; [congruence|discriminate].
  - destruct (Hl x (or_introl eq_refl)) as [_ Hx], (Hl' x' (or_introl eq_refl)) as [_ Hx'].
    destruct l as [|y l], l' as [|y' l'].
    + cbn in H. subst x'. reflexivity.
    + cbn [join] in H. exfalso. exact (not_split c x x' _ Hx H).
    + cbn [join] in H. exfalso. symmetry in H. exact (not_split c x' x _ Hx' H).
    + change (x ++ c :: (r ++ join (c :: r) (y :: l)) = x' ++ c :: (r ++ join (c :: r) (y' :: l'))) in H.
      apply split_at in H as [-> H]; [|assumption|assumption]. apply app_inv_head in H.
      f_equal. apply IH; [intros z Hz; apply Hl; right; exact Hz|intros z Hz; apply Hl'; right; exact Hz|exact H].
Qed.

(** ** Types *)
Lemma display_chars t : forall c, In c (ty_display t) -> (97 <= c <= 122)%N \/ c = 46%N.
Proof.
  induction t; intros c H.
  all: try (vm_compute in H; repeat match type of H with _ \/ _ => destruct H as [<-|H] end; try contradiction; left; split; discriminate).
  cbn [ty_display] in H. apply in_app_or in H as [H|H]; [apply IHt; exact H|]. vm_compute in H.
  right. repeat match type of H with _ \/ _ => destruct H as [<-|H] end; try contradiction; reflexivity.
Qed.
Lemma display_nonempty t : ty_display t <> [].
Proof. induction t; try discriminate. cbn [ty_display]. destruct (ty_display t); [congruence|discriminate]. Qed.

Definition base_ty (t : ty) : Prop := is_variadic_ty t = false.
Lemma base_no_dot t : base_ty t -> ~ In 46%N (ty_display t).
Proof. intros H Hin. destruct t; try discriminate H; vm_compute in Hin; repeat match type of Hin with _ \/ _ => destruct Hin as [Hin|Hin]; [discriminate Hin|] end; exact Hin. Qed.
Lemma display_inj t : forall t', ty_display t = ty_display t' -> t = t'.
Proof.
  induction t; intros t' H;
    try (destruct t'; try reflexivity; try discriminate H; exfalso;
         match type of H with ty_display ?b = _ => apply (base_no_dot b eq_refl) end; rewrite H; cbn [ty_display]; apply in_or_app; right; left; reflexivity).
  destruct t'; try (exfalso; symmetry in H; match type of H with ty_display ?b = _ => apply (base_no_dot b eq_refl) end; rewrite H; cbn [ty_display]; apply in_or_app; right; left; reflexivity).
  cbn [ty_display] in H. apply app_inv_tail in H. f_equal. apply IHt. exact H.
Qed.

Lemma types_inj l l' : map ty_display l = map ty_display l' -> l = l'.
Proof.
  revert l'. induction l as [|t l IH]; intros [|t' l'] H; try discriminate; [reflexivity|]. cbn in H. injection H as H1 H2.
  f_equal; [apply display_inj; exact H1|apply IH; exact H2].
Qed.

Lemma not_in_display c t : (c < 46 \/ (46 < c /\ c < 97) \/ 122 < c)%N -> ~ In c (ty_display t).
Proof. intros H Hin. apply display_chars in Hin. lia. Qed.

Lemma join_chars (p : chr -> Prop) sep l : (forall c, In c sep -> p c) -> (forall x c, In x l -> In c x -> p c) -> forall c, In c (join sep l) -> p c.
Proof.
  intros Hs. induction l as [|x l IH]; intros Hl c H; [contradiction|]. destruct l as [|y l].
  - apply (Hl x c); [left; reflexivity|exact H].
  - change (In c (x ++ sep ++ join sep (y :: l))) in H. apply in_app_or in H as [H|H]; [apply (Hl x c); [left; reflexivity|exact H]|].
    apply in_app_or in H as [H|H]; [auto|]. apply IH; [|exact H]. intros z d Hz. apply Hl. right. exact Hz.
Qed.

Lemma args_text_chars l c : In c (join (txt ", ") (map ty_display l)) -> c <> 41%N /\ c <> 40%N /\ c <> 124%N.
Proof.
  intros H. assert (Hp : (fun c => (97 <= c <= 122)%N \/ c = 46%N \/ c = 44%N \/ c = 32%N) c).
  { revert c H. apply join_chars.
    - intros c Hc. vm_compute in Hc. destruct Hc as [<-|[<-|[]]]; auto.
    - intros x c Hx Hc. apply in_map_iff in Hx as (t & <- & _). apply display_chars in Hc. tauto. }
  cbn in Hp. destruct Hp as [Hp|[->|[->| ->]]]; repeat split; try discriminate; intros ->; destruct Hp as [H1 H2]; compute in H1, H2; try (now apply H1); now apply H2.
Qed.

(** ** Signatures *)
Lemma signature_inj f f' : ~ In 40%N (f_name f) -> ~ In 40%N (f_name f') -> signature f = signature f' ->
  f_name f = f_name f' /\ f_arg_types f = f_arg_types f' /\ f_out_type f = f_out_type f'.
Proof.
  unfold signature. intros Hn Hn' H.
  change (txt "(") with [40%N] in H. cbn [app] in H.
  apply split_at in H as [H1 H]; [|assumption|assumption].
  change (txt ") -> ") with (41%N :: txt " -> ") in H. cbn [app] in H.
  apply split_at in H as [H2 H].
  2:{ intros Hin. apply args_text_chars in Hin. destruct Hin as [Hin _]. congruence. }
  2:{ intros Hin. apply args_text_chars in Hin. destruct Hin as [Hin _]. congruence. }
  change (txt " -> " ++ ty_display (f_out_type f) = txt " -> " ++ ty_display (f_out_type f')) in H. apply app_inv_head in H.
  split; [exact H1|]. split; [|apply display_inj; exact H].
  apply types_inj. change (txt ", ") with (44%N :: txt " ") in H2. apply join_inj in H2; [exact H2| |].
  - intros x Hx. apply in_map_iff in Hx as (t & <- & _). split; [apply display_nonempty|apply not_in_display; lia].
  - intros x Hx. apply in_map_iff in Hx as (t & <- & _). split; [apply display_nonempty|apply not_in_display; lia].
Qed.

Lemma signature_nonempty f : signature f <> [].
Proof. unfold signature. destruct (f_name f); discriminate. Qed.
Lemma signature_no_bar f : ~ In 124%N (f_name f) -> ~ In 124%N (signature f).
Proof.
  intros Hn Hin. unfold signature in Hin. apply in_app_or in Hin as [Hin|Hin]; [exact (Hn Hin)|].
  apply in_app_or in Hin as [Hin|Hin]; [vm_compute in Hin; destruct Hin as [Hin|[]]; discriminate Hin|].
  apply in_app_or in Hin as [Hin|Hin]; [apply args_text_chars in Hin; destruct Hin as (_ & _ & Hin); congruence|].
  apply in_app_or in Hin as [Hin|Hin]; [vm_compute in Hin; repeat (destruct Hin as [Hin|Hin]; [discriminate Hin|]); exact Hin|].
  revert Hin. apply not_in_display. lia.
Qed.

Lemma pretty_is_join sigs : (forall x, In x sigs -> x <> []) ->
  fold_left (fun acc sig => match acc with [] => sig | _ => acc ++ txt " | " ++ sig end) sigs [] = join (txt " | ") sigs.
Proof.
  intros H. destruct sigs as [|s sigs]; [reflexivity|]. cbn [fold_left].
  assert (Hs : s <> []) by (apply H; left; reflexivity).
  assert (Hr : forall x, In x sigs -> x <> []) by (intros x Hx; apply H; right; exact Hx).
  clear H. revert s Hs. induction sigs as [|s2 sigs IH]; intros s Hs; [reflexivity|]. cbn [fold_left].
  destruct s as [|c s]; [congruence|]. rewrite IH.
  - destruct sigs as [|s3 sigs]; [reflexivity|]. cbn [join]. rewrite <- !app_assoc. reflexivity.
  - intros x Hx. apply Hr. right. exact Hx.
  - discriminate.
Qed.

Lemma join_bar_inj (l l' : list str) :
  (forall x, In x l -> x <> [] /\ ~ In 124%N x) -> (forall x, In x l' -> x <> [] /\ ~ In 124%N x) ->
  join (txt " | ") l = join (txt " | ") l' -> l = l'.
Proof.
  revert l'. induction l as [|x l IH]; intros [|x' l'] Hl Hl' H.
  - reflexivity.
  - destruct (Hl' x' (or_introl eq_refl)) as [Hx _]. destruct l'; cbn in H; [congruence|]. destruct x'; [congruence|discriminate].
  - destruct (Hl x (or_introl eq_refl)) as [Hx _]. destruct l; cbn in H; [congruence|]. destruct x; [congruence|discriminate].
  - destruct (Hl x (or_introl eq_refl)) as [_ Hx], (Hl' x' (or_introl eq_refl)) as [_ Hx'].
    assert (Hno : forall z, ~ In 124%N z -> ~ In 124%N (z ++ [32%N])).
    { intros z Hz Hin. apply in_app_or in Hin as [Hin|[Hin|[]]]; [exact (Hz Hin)|discriminate Hin]. }
    destruct l as [|y l], l' as [|y' l'].
    + cbn in H. subst x'. reflexivity.
    + change (x = x' ++ [32%N] ++ 124%N :: ([32%N] ++ join (txt " | ") (y' :: l'))) in H. rewrite app_assoc in H. exfalso. exact (not_split _ _ _ _ Hx H).
    + change (x ++ [32%N] ++ 124%N :: ([32%N] ++ join (txt " | ") (y :: l)) = x') in H. rewrite app_assoc in H. exfalso. symmetry in H. exact (not_split _ _ _ _ Hx' H).
    + change (x ++ [32%N] ++ 124%N :: ([32%N] ++ join (txt " | ") (y :: l)) = x' ++ [32%N] ++ 124%N :: ([32%N] ++ join (txt " | ") (y' :: l'))) in H.
      rewrite (app_assoc x), (app_assoc x') in H. apply split_at in H as [H1 H]; [|apply Hno; assumption|apply Hno; assumption].
      apply app_inv_tail in H1 as ->. apply app_inv_head in H.
      f_equal. apply IH; [intros z Hz; apply Hl; right; exact Hz|intros z Hz; apply Hl'; right; exact Hz|exact H].
Qed.

(** ** Whose fault *)
Lemma blame env G e er : elab env G e None = inr er ->
  exists id name args raw, e = ECall id name args raw /\
    ((er = SignatureError name /\ get_func_variants env name <> None) \/ (er = UndefinedFunctionError name /\ get_func_variants env name = None)).
Proof.
  destruct e as [id v|id name args raw]; cbn [elab].
  - rewrite cost_same. discriminate.
  - intros H. exists id, name, args, raw. split; [reflexivity|].
    destruct (get_func_variants env name) as [fs|] eqn:E; [|injection H as <-; right; auto].
    destruct (best _) as [[[c f] tes]|]; [discriminate|]. injection H as <-. left. split; [reflexivity|discriminate].
Qed.

Section Blame.
Context (O : oracles) (seed first : N).
Let env := new_initialized O seed first.
Let defs (items : list spec_item) c := make_substitutions O env {| spec_items := items; is_comma_used := c |}.

Lemma elab_blame items : forall G er, elab_items env G items = Err er ->
  is_refusal er = true /\ exists pre a e post, items = pre ++ (a, e) :: post /\ (exists tis, elab_items env G pre = Ok tis) /\
    at_fault (has_func env) (rev (map fst G) ++ map fst pre) a e er.
Proof.
  induction items as [|[a e] items IH]; intros G er H; [discriminate|]. cbn [elab_items] in H.
  destruct (elab env G e None) as [[te c]|er'] eqn:Ee.
  - destruct (assoc_str a G) as [t|] eqn:Ea.
    + injection H as <-. split; [reflexivity|]. exists [], a, e, items. split; [reflexivity|]. split; [exists []; reflexivity|]. cbn.
      split; [reflexivity|]. apply in_or_app. left. apply -> in_rev. apply assoc_str_In. congruence.
    + destruct (elab_items env ((a, target_of te) :: G) items) as [r|er'|p] eqn:Er; cbn [bind] in H; try discriminate. injection H as ->.
      apply IH in Er as (Hr & pre & a' & e' & post & -> & (tis & Ht) & Hf). split; [exact Hr|].
      exists ((a, e) :: pre), a', e', post. split; [reflexivity|]. split.
      * cbn [elab_items]. rewrite Ee, Ea. unfold alias in *. rewrite Ht. cbn [bind]. eauto.
      * cbn [map fst rev] in Hf. rewrite <- app_assoc in Hf. exact Hf.
  - injection H as ->. apply blame in Ee as (id & name & args & raw & -> & Hb). split.
    + destruct Hb as [[-> _]|[-> _]]; reflexivity.
    + exists [], a, (ECall id name args raw), items. split; [reflexivity|]. split; [exists []; reflexivity|].
      unfold at_fault, has_func. destruct Hb as [[-> Hb]|[-> Hb]]; (split; [|eauto]); destruct (get_func_variants env name); congruence.
Qed.

Lemma elab_prefix pre : forall post G,
  match elab_items env G pre with
  | Ok _ => True
  | r => elab_items env G (pre ++ post) = r
  end.
Proof.
  induction pre as [|[a e] pre IH]; intros post G; [exact I|]. cbn [elab_items app]. destruct (elab env G e None) as [[te c]|er]; [|reflexivity].
  destruct (assoc_str a G); [reflexivity|]. specialize (IH post ((a, target_of te) :: G)).
  unfold alias in *. destruct (elab_items env ((a, target_of te) :: G) pre); cbn [bind]; [exact I| |]; rewrite IH; reflexivity.
Qed.

Lemma refused_iff items c : NoDup (item_ids items) ->
  (refused (defs items c) <-> exists er, elab_items env [] items = Err er) /\
  (forall er, is_refusal er = true -> (defs items c = Err er <-> elab_items env [] items = Err er)).
Proof.
  intros Hn. unfold defs. rewrite make_substitutions_spec by exact Hn. cbn [spec_items]. unfold bindings.
  destruct (elab_items env [] items) as [tis|er|p] eqn:E; cbn [bind].
  - pose proof (items_sound O seed first items [] [] tis (Forall2_nil _) E) as Hs. change (e_seed env) with seed.
    split.
    + split; [|intros (er & H); discriminate]. intros (er & H & Hr). rewrite H in Hs. destruct Hs as [-> | ->]; discriminate.
    + intros er Hr. split; [|discriminate]. intros H. rewrite H in Hs. destruct Hs as [-> | ->]; discriminate.
  - split; [|intros er0 _; split; intros H; injection H as ->; reflexivity]. apply elab_blame in E as [Hr _]. split; intros; [eauto|]. exists er. auto.
  - split; [|intros; split; discriminate]. split; intros (er & H); [destruct H|]; discriminate.
Qed.

Lemma item_ids_prefix (pre post : list spec_item) : NoDup (item_ids (pre ++ post)) -> NoDup (item_ids pre).
Proof. unfold item_ids. rewrite flat_map_app. intros H; apply NoDup_app_disj in H; apply H. Qed.

Lemma blamed items c er : NoDup (item_ids items) -> defs items c = Err er -> is_refusal er = true ->
  exists pre a e post, items = pre ++ (a, e) :: post /\ (forall c', ~ refused (defs pre c')) /\
    at_fault (has_func env) (map fst pre) a e er.
Proof.
  intros Hn H Hr. apply (proj2 (refused_iff items c Hn) er Hr) in H. apply elab_blame in H as (_ & pre & a & e & post & -> & (tis & Ht) & Hf).
  exists pre, a, e, post. split; [reflexivity|]. split; [|exact Hf]. intros c' Hc.
  apply (proj1 (refused_iff pre c' (item_ids_prefix _ _ Hn))) in Hc as (er' & Hc). congruence.
Qed.

Lemma refusals_first pre post c c' er : NoDup (item_ids (pre ++ post)) -> defs pre c = Err er -> is_refusal er = true ->
  defs (pre ++ post) c' = Err er.
Proof.
  intros Hn H Hr. apply (proj2 (refused_iff pre c (item_ids_prefix _ _ Hn)) er Hr) in H.
  apply (proj2 (refused_iff _ c' Hn) er Hr). pose proof (elab_prefix pre post []) as Hp. rewrite H in Hp. exact Hp.
Qed.

Lemma evaluated_last pre post c c' : NoDup (item_ids (pre ++ post)) -> ~ refused (defs (pre ++ post) c') -> ~ refused (defs pre c).
Proof. intros Hn H (er & Hd & Hr). apply H. exists er. split; [|exact Hr]. eapply refusals_first; eauto. Qed.
End Blame.

(** ** The table *)
Lemma pretty_inj env env' n n' fs fs' : get_func_variants env n = Some fs -> get_func_variants env' n' = Some fs' ->
  (forall f, In f (fs ++ fs') -> ~ In 40%N (f_name f) /\ ~ In 124%N (f_name f)) ->
  pretty_func_sig env n = pretty_func_sig env' n' -> map shown fs = map shown fs'.
Proof.
  intros H H' Hn Hp. unfold pretty_func_sig in Hp. rewrite H, H' in Hp. cbn [option_map] in Hp.
  rewrite !pretty_is_join in Hp by (intros x Hx; apply in_map_iff in Hx as (f & <- & _); apply signature_nonempty).
  assert (Hp' : join (txt " | ") (map signature fs) = join (txt " | ") (map signature fs')) by congruence. clear Hp.
  apply join_bar_inj in Hp'.
  - assert (Hm : forall l l' : list func, (forall f, In f (l ++ l') -> ~ In 40%N (f_name f)) -> map signature l = map signature l' -> map shown l = map shown l').
    { clear. induction l as [|f l IH]; intros [|f' l'] Hn H; try discriminate; [reflexivity|]. cbn [map] in H. injection H as H1 H2. cbn [map].
      apply signature_inj in H1 as (E1 & E2 & E3); [|apply Hn; left; reflexivity|apply Hn; apply in_or_app; right; left; reflexivity].
      f_equal; [unfold shown; congruence|]. apply IH; [|exact H2]. intros g Hg. apply Hn.
      apply in_app_or in Hg as [Hg|Hg]; [right; apply in_or_app; auto|]. apply in_or_app. right. right. exact Hg. }
    apply Hm; [|exact Hp']. intros f Hf. apply Hn. exact Hf.
  - intros x Hx. apply in_map_iff in Hx as (f & <- & Hf). split; [apply signature_nonempty|]. apply signature_no_bar. apply Hn. apply in_or_app. auto.
  - intros x Hx. apply in_map_iff in Hx as (f & <- & Hf). split; [apply signature_nonempty|]. apply signature_no_bar. apply Hn. apply in_or_app. auto.
Qed.

Definition row_ok (r : row) : bool := forallb (fun v => well_formed_params (fst (fst v))) (snd r).
Lemma table_ok O : forallb row_ok (table O) = true.
Proof. reflexivity. Qed.
Lemma number_variants_in name vs : forall k f, In f (number_variants name k vs) -> f_name f = name /\ In (f_arg_types f) (map (fun v => fst (fst v)) vs).
Proof.
  induction vs as [|[[args out] impl] vs IH]; intros k f Hf; [contradiction|]. cbn [number_variants] in Hf. destruct Hf as [<-|Hf]; [cbn; auto|].
  apply IH in Hf as [H1 H2]. cbn. auto.
Qed.
Lemma table_well_formed O seed first n fs f : get_func_variants (new_initialized O seed first) n = Some fs -> In f fs ->
  f_name f = n /\ well_formed_params (f_arg_types f) = true.
Proof.
  unfold get_func_variants, new_initialized. cbn [e_funcs]. intros H Hf. revert first H. pose proof (table_ok O) as Ht. revert Ht.
  generalize (table O). induction l as [|[nm vs] l IH]; intros Ht k H; [discriminate|]. cbn [forallb] in Ht. apply andb_true_iff in Ht as [Hr Ht].
  cbn [number_rows assoc_str] in H. destruct (str_eqb n nm) eqn:E; [|eapply IH; eauto].
  injection H as <-. apply str_eqb_eq in E as ->. apply number_variants_in in Hf as [H1 H2]. split; [exact H1|].
  unfold row_ok in Hr. cbn [snd] in Hr. rewrite forallb_forall in Hr. apply in_map_iff in H2 as (v & <- & Hv). apply Hr. exact Hv.
Qed.

Lemma quoting_ambiguous : exists e e', expr_display ascii e = expr_display ascii e' /\
  match e, e' with ECall _ _ args _, ECall _ _ args' _ => List.length args <> List.length args' | _, _ => False end.
Proof.
  exists (ECall 0 (txt "upper") [EValue 1 (VLitStr (txt "a" ++ quote_mark ++ txt ", " ++ quote_mark ++ txt "b") []); EValue 2 (VLitStr (txt "c") [])] None),
         (ECall 0 (txt "upper") [EValue 1 (VLitStr (txt "a") []); EValue 2 (VLitStr (txt "b") []); EValue 3 (VLitStr (txt "c") [])] None).
  split; [vm_compute; reflexivity|]. discriminate.
Qed.
Lemma signature_shown f f' : ~ In 40%N (f_name f) -> ~ In 40%N (f_name f') -> signature f = signature f' -> shown f = shown f'.
Proof. intros H H' E. apply signature_inj in E as (E1 & E2 & E3); [|assumption|assumption]. unfold shown. congruence. Qed.
