(** Substitution in streams and blocks that are the same but for invisible groups. *)
From Coq Require Import String.
From Verif Require Import Base BaseFacts Token Types Values FormatString SubstituteIdents SpecSubst WalkerProofs SubstFacts Ast Env
  Item AliasSubstitution Deprecation Interpreter SpecItem VisitorProofs SpecElab SpecMacro SpecOutcome OutcomeProofs
  SpecInvisible InvisibleProofs SpecInvisibleRun InvisibleElab InvisibleEmit.
Open Scope list_scope.

(** ** Streams *)
Section Flat.
Context (A B : str -> option (list tt)) (L M : lit -> option lit).
Hypothesis HA : forall x, B x = option_map flats (A x).
Hypothesis HL : forall l, M l = L l.
Definition flat_stage (s : option str * list tt) : option str * list tt := (fst s, flats (snd s)).

Lemma rs_app C N a b : replaced_stream C N (a ++ b) = replaced_stream C N a ++ replaced_stream C N b.
Proof. apply flat_map_app. Qed.
Lemma stages_app C N a b : stages C N (a ++ b) =
  map (fun s => (fst s, snd s ++ b)) (stages C N a) ++ map (fun s => (fst s, replaced_stream C N a ++ snd s)) (stages C N b).
Proof.
  induction a as [|t a IH]; cbn [app stages map].
  - symmetry. etransitivity; [|apply map_id]. apply map_ext. intros [x s]. reflexivity.
  - rewrite IH, !map_app, !map_map, <- app_assoc. cbn [fst snd]. f_equal; [|f_equal]; apply map_ext; intros [x s]; cbn [fst snd]; f_equal.
    + rewrite app_assoc. reflexivity.
    + rewrite app_assoc. reflexivity.
    + unfold replaced_stream. cbn [flat_map]. rewrite app_assoc. reflexivity.
Qed.

Lemma group_replaced C N d g : replaced C N (TGroup d g) = [TGroup d (replaced_stream C N g)].
Proof. reflexivity. Qed.
Lemma replaced_flats ts : flats (replaced_stream A L ts) = replaced_stream B M (flats ts).
Proof.
  assert (Hl : forall l, Forall (fun t => flats (replaced A L t) = replaced_stream B M (flat t)) l -> flats (replaced_stream A L l) = replaced_stream B M (flats l)).
  { induction 1 as [|t l Ht _ IH]; [reflexivity|]. unfold replaced_stream at 1. cbn [flat_map]. rewrite flats_app. unfold flats at 3. cbn [flat_map]. rewrite rs_app.
    unfold replaced_stream at 1 in IH. rewrite IH, Ht. reflexivity. }
  apply Hl, Forall_forall. intros t _. induction t as [x|c j|l|d g IH] using tt_ind'.
  - unfold replaced_stream. cbn [flat flat_map replaced]. rewrite HA, app_nil_r. destruct (A x); reflexivity.
  - reflexivity.
  - unfold replaced_stream. cbn [flat flat_map replaced]. rewrite HL, app_nil_r. destruct (L l); reflexivity.
  - apply Hl in IH. rewrite group_replaced. unfold flats at 1. cbn [flat_map]. rewrite app_nil_r. unfold flats, replaced_stream in *.
    destruct d; cbn [flat flat_map replaced]; rewrite ?app_nil_r, ?IH; reflexivity.
Qed.
Lemma stages_flats ts : map flat_stage (stages A L ts) = stages B M (flats ts).
Proof.
  assert (Hl : forall l, Forall (fun t => map flat_stage (stages1 A L t) = stages B M (flat t)) l -> map flat_stage (stages A L l) = stages B M (flats l)).
  { induction 1 as [|t l Ht _ IH]; [reflexivity|]. cbn [stages]. unfold flats at 1. cbn [flat_map]. rewrite stages_app, <- Ht, map_app, !map_map. fold (flats l). rewrite <- IH, map_map.
    f_equal; apply map_ext; intros [x s]; unfold flat_stage; cbn [fst snd]; f_equal; rewrite flats_app; [reflexivity|]. f_equal.
    transitivity (flats (replaced_stream A L [t])); [unfold replaced_stream; cbn [flat_map]; rewrite app_nil_r; reflexivity|].
    rewrite replaced_flats. unfold flats. cbn [flat_map]. rewrite app_nil_r. reflexivity. }
  apply Hl, Forall_forall. intros t _. induction t as [x|c j|l|d g IH] using tt_ind'.
  - cbn [flat stages stages1 map]. rewrite HA. destruct (A x) as [ts'|]; [|reflexivity]. cbn. unfold flat_stage. cbn [fst snd]. rewrite app_nil_r. reflexivity.
  - reflexivity.
  - cbn [flat stages stages1 map]. rewrite HL. destruct (L l); reflexivity.
  - apply Hl in IH. rewrite st1_group, map_map. unfold flat_stage at 1. cbn [fst snd].
    assert (V : forall d, d <> NoDelim -> map (fun s => (fst s, flats [TGroup d (snd s)])) (stages A L g) = stages B M [TGroup d (flats g)]).
    { intros d' Hd. change (stages B M [TGroup d' (flats g)]) with (map (fun s => (fst s, snd s ++ [])) (stages1 B M (TGroup d' (flats g))) ++ []).
      rewrite app_nil_r, st1_group, map_map, <- IH, map_map. apply map_ext. intros [x s]. unfold flat_stage. cbn [fst snd app]. f_equal.
      destruct d'; try reflexivity. contradiction. }
    destruct d; cbn [flat]; fold (flats g); try (apply V; discriminate). rewrite <- IH. apply map_ext. intros [x s]. unfold flat_stage. cbn [fst snd]. f_equal.
    unfold flats. cbn [flat_map flat]. apply app_nil_r.
Qed.
End Flat.

(** ** Aliases *)
Section Lookups.
Context (O : oracles) (Y : syntax) (D : list tt -> Prop) (L : sees_through O Y D).
Context (bs bs' : list (str * value)) (Hb : env_alike D bs bs').
Let lookup x := assoc_str x bs.
Let lookup' x := assoc_str x bs'.

Lemma format_value_alike v w : value_alike D v w -> format_value O v = format_value O w.
Proof.
  intros H. pose proof (tokens_alike _ _ _ H) as T. destruct H as (E & _). destruct v, w; try discriminate E; cbn [format_value to_tokens] in *;
    try (apply (through_text _ _ _ L); exact T); try (rewrite (through_segments _ _ _ L _ _ T); reflexivity); cbn in E; injection E; auto.
Qed.
Lemma format_string_alike s : format_string O lookup s = format_string O lookup' s.
Proof.
  assert (H : forall st c, format_step O lookup st c = format_step O lookup' st c).
  { intros st c. unfold format_step. pose proof (assoc_alike D (placeholder st) _ _ Hb) as Ha. fold (lookup (placeholder st)) (lookup' (placeholder st)) in Ha.
    destruct (is_percent c); [|reflexivity]. destruct (match prev_c st with Some p => _ | None => _ end); [reflexivity|]. destruct (in_placeholder st); [|reflexivity].
    destruct (lookup (placeholder st)), (lookup' (placeholder st)); try contradiction; [|reflexivity]. rewrite (format_value_alike _ _ Ha). reflexivity. }
  unfold format_string. replace (fold_left (format_step O lookup) s fstart) with (fold_left (format_step O lookup') s fstart); [reflexivity|].
  generalize fstart. induction s as [|c s IH]; intros st; [reflexivity|]. cbn [fold_left]. rewrite IH, H. reflexivity.
Qed.
Lemma literal_alike l : literal_of O lookup' l = literal_of O lookup l.
Proof. unfold literal_of. destruct (parse_lit_str O [TLit l]) as [[v p]|]; [|reflexivity]. rewrite format_string_alike. reflexivity. Qed.
Lemma alias_alike x : option_map flats (tokens_of lookup x) = option_map flats (tokens_of lookup' x).
Proof.
  unfold tokens_of, lookup, lookup'. pose proof (assoc_alike D x _ _ Hb) as Ha. destruct (assoc_str x bs), (assoc_str x bs'); try contradiction; [|reflexivity].
  apply tokens_alike in Ha as (_ & _ & E). cbn. congruence.
Qed.
Lemma sub_alike ts ts' : flats ts = flats ts' -> flats (substituted O lookup ts) = flats (substituted O lookup' ts').
Proof.
  intros E. unfold substituted. rewrite (replaced_flats _ (fun x => option_map flats (tokens_of lookup x)) _ (literal_of O lookup)) by reflexivity.
  rewrite (replaced_flats (tokens_of lookup') (fun x => option_map flats (tokens_of lookup x)) _ (literal_of O lookup)), E; [reflexivity|exact alias_alike|].
  intros l. symmetry. apply literal_alike.
Qed.
Lemma values_in x v : lookup x = Some v -> D (to_tokens v).
Proof. intros H. pose proof (assoc_alike D x _ _ Hb) as Ha. fold (lookup x) (lookup' x) in Ha. rewrite H in Ha. destruct (lookup' x); [|contradiction]. exact (proj1 (proj2 Ha)). Qed.
Lemma values_in' x v : lookup' x = Some v -> D (to_tokens v).
Proof. intros H. pose proof (assoc_alike D x _ _ Hb) as Ha. fold (lookup x) (lookup' x) in Ha. rewrite H in Ha. destruct (lookup x); [|contradiction]. exact (proj2 (proj2 Ha)). Qed.

Definition stage_with (R : list tt -> list tt -> Prop) (s s' : option str * list tt) : Prop := fst s = fst s' /\ R (snd s) (snd s').
Lemma stages_alike ts ts' : alike D ts ts' ->
  Forall2 (stage_with (alike D)) (substitution_stages O lookup ts) (substitution_stages O lookup' ts').
Proof.
  intros (H1 & H2 & E).
  assert (HF : map flat_stage (substitution_stages O lookup ts) = map flat_stage (substitution_stages O lookup' ts')).
  { unfold substitution_stages. rewrite (stages_flats _ (fun x => option_map flats (tokens_of lookup x)) _ (literal_of O lookup)) by reflexivity.
    rewrite (stages_flats (tokens_of lookup') (fun x => option_map flats (tokens_of lookup x)) _ (literal_of O lookup)), E; [reflexivity|exact alias_alike|].
    intros l. symmetry. apply literal_alike. }
  assert (G1 : forall s, In s (substitution_stages O lookup ts) -> D (snd s)) by (intros s; apply (in_stage _ _ _ L); [exact H1|exact values_in]).
  assert (G2 : forall s, In s (substitution_stages O lookup' ts') -> D (snd s)) by (intros s; apply (in_stage _ _ _ L); [exact H2|exact values_in']).
  revert HF G1 G2. generalize (substitution_stages O lookup ts) (substitution_stages O lookup' ts'). intros l. induction l as [|s l IH]; intros [|s' l'] HF G1 G2; try discriminate HF; [constructor|].
  cbn [map] in HF. injection HF as Hx Hy HF. constructor; [|apply IH; auto using in_cons].
  split; [exact Hx|]. split; [apply G1; left; reflexivity|]. split; [apply G2; left; reflexivity|exact Hy].
Qed.
Lemma substituted_alike ts ts' : alike D ts ts' -> alike D (substituted O lookup ts) (substituted O lookup' ts').
Proof.
  intros H. pose proof (stages_alike _ _ H) as HS. destruct (stages_shape O lookup ts) as [_ E1], (stages_shape O lookup' ts') as [_ E2]. rewrite <- E1, <- E2. clear E1 E2.
  assert (G : stage_with (alike D) (None, ts) (None, ts')) by (split; [reflexivity|exact H]). revert G. generalize (@None str, ts) (@None str, ts').
  induction HS as [|a b l l' Ha HS IH]; intros d d' Hd; [exact (proj2 Hd)|]. destruct HS as [|a2 b2 l l' Ha2 HS]; [exact (proj2 Ha)|]. apply (IH d d' Hd).
Qed.

(** ** Parts *)
Lemma failure_alike (R : list tt -> list tt -> Prop) acc l l' ts ts' alias : (forall a b, R a b -> acc a = acc b :> bool) ->
  Forall2 (stage_with R) l l' -> R ts ts' -> stage_failure acc alias l ts = stage_failure acc alias l' ts'.
Proof.
  intros Hacc HF Ht. revert alias. induction HF as [|[x s] [x' s'] l l' [E H] _ IH]; intros alias; cbn [stage_failure fst snd] in *.
  - rewrite (Hacc _ _ Ht). reflexivity.
  - subst x'. rewrite (Hacc _ _ H). destruct (acc s'); [apply IH|reflexivity].
Qed.
Lemma tokens_failure_alike acc ts ts' : (forall a b, alike D a b -> acc a = acc b :> bool) -> alike D ts ts' ->
  tokens_failure O lookup acc ts = tokens_failure O lookup' acc ts'.
Proof. intros Hacc H. apply (failure_alike (alike D)); [exact Hacc|apply stages_alike; exact H|apply substituted_alike; exact H]. Qed.
Lemma accepted_alike f a b : parses_alike D f -> alike D a b -> accepted (f a) = accepted (f b).
Proof. intros Hf Hab. specialize (Hf _ _ Hab). destruct (f a), (f b); try contradiction; reflexivity. Qed.

(** Attributes. *)
Definition shaped (t t' : tt) : Prop :=
  (exists c j, t = TPunct c j /\ t' = TPunct c j) \/ (exists m m', t = TGroup Bracket m /\ t' = TGroup Bracket m' /\ alike D m m').
Lemma accepted_shaped a b : Forall2 shaped a b -> attributes_accepted (reparse Y) a = attributes_accepted (reparse Y) b.
Proof.
  remember (List.length a) as n eqn:En. assert (Hn : List.length a <= n) by lia. clear En. revert a b Hn.
  induction n as [|n IH]; intros a b Hn H; destruct H as [|t t' a b Ht H]; try reflexivity; [cbn in Hn; lia|].
  destruct Ht as [(c & j & -> & ->)|(m & m' & -> & -> & _)]; [|reflexivity].
  destruct H as [|u u' a b Hu H]; [reflexivity|]. destruct Hu as [(c' & j' & -> & ->)|(m & m' & -> & -> & Hm)]; [reflexivity|].
  cbn [attributes_accepted]. rewrite (accepted_alike _ _ _ (through_a_node _ _ _ L KMeta) Hm). rewrite (IH a b); [reflexivity|cbn in Hn; lia|exact H].
Qed.
Lemma shaped_refl_rest a b r r' : Forall2 shaped a b -> Forall2 shaped r r' -> Forall2 shaped (a ++ r) (b ++ r').
Proof. apply Forall2_app. Qed.
Lemma shaped_stages ts ts' : Forall2 shaped ts ts' ->
  Forall2 (stage_with (Forall2 shaped)) (substitution_stages O lookup ts) (substitution_stages O lookup' ts') /\
  Forall2 shaped (substituted O lookup ts) (substituted O lookup' ts').
Proof.
  induction 1 as [|t t' ts ts' Ht Hts [IH1 IH2]]; [split; constructor|].
  assert (H1 : Forall2 (stage_with (Forall2 shaped)) (stages1 (tokens_of lookup) (literal_of O lookup) t) (stages1 (tokens_of lookup') (literal_of O lookup') t') /\
               Forall2 shaped (replaced (tokens_of lookup) (literal_of O lookup) t) (replaced (tokens_of lookup') (literal_of O lookup') t')).
  { destruct Ht as [(c & j & -> & ->)|(m & m' & -> & -> & Hm)].
    - split; [constructor|]. constructor; [left; eauto|constructor].
    - rewrite !st1_group. split.
      + pose proof (stages_alike _ _ Hm) as HS. unfold substitution_stages in HS. induction HS as [|s s' l l' [E Hs] _ IHS]; constructor; [|exact IHS].
        split; [exact E|]. cbn [snd]. constructor; [right; eauto|constructor].
      + rewrite !group_replaced. constructor; [right|constructor]. do 2 eexists. split; [reflexivity|]. split; [reflexivity|]. apply (substituted_alike _ _ Hm). }
  destruct H1 as [H1 H2]. split.
  - unfold substitution_stages in *. cbn [stages]. apply Forall2_app.
    + clear -H1 Hts. induction H1 as [|s s' l l' [E Hs] _ IHS]; constructor; [|exact IHS]. split; [exact E|]. cbn [snd]. apply Forall2_app; assumption.
    + clear -IH1 H2. induction IH1 as [|s s' l l' [E Hs] _ IHS]; constructor; [|exact IHS]. split; [exact E|]. cbn [snd]. apply Forall2_app; assumption.
  - unfold substituted, replaced_stream in *. cbn [flat_map]. apply Forall2_app; assumption.
Qed.
Lemma attrs_shaped l l' : map flat_attr l = map flat_attr l' -> Forall (fun a => D (meta a)) l -> Forall (fun a => D (meta a)) l' ->
  Forall2 shaped (attrs_tokens l) (attrs_tokens l').
Proof.
  revert l'. induction l as [|a l IH]; intros [|a' l'] E H H'; try discriminate E; [constructor|]. cbn [map] in E. injection E as Ei Em E.
  inversion H as [|? ? Ha Hl]; inversion H' as [|? ? Ha' Hl']; subst. unfold attrs_tokens. cbn [flat_map]. apply Forall2_app; [|apply IH; assumption].
  unfold attr_tokens. rewrite <- Ei. assert (G : Forall2 shaped [TGroup Bracket (meta a)] [TGroup Bracket (meta a')]).
  { constructor; [right|constructor]. do 2 eexists. split; [reflexivity|]. split; [reflexivity|]. split; [exact Ha|split; [exact Ha'|exact Em]]. }
  cbn [app]. constructor; [left; do 2 eexists; split; reflexivity|]. destruct (is_inner a); cbn [app]; [constructor; [left; do 2 eexists; split; reflexivity|]|]; exact G.
Qed.

(** How a part fails, whatever parsing it again prints. *)
Definition part_fails (lk : str -> option value) (p : part) : option failure :=
  match p with
  | PartStatement ts =>
      match reparse Y KBlock [TGroup Brace ts] with
      | None => Some (Panics PUnreachable)
      | Some b => tokens_failure O lk (fun ts => accepted (reparse Y KBlock ts)) b
      end
  | _ => part_failure O lk (reparse Y) p
  end.
Lemma part_ends lk ts : ends_as (visit_other_stmt O lk (reparse Y) ts) (part_fails lk (PartStatement ts)).
Proof.
  unfold visit_other_stmt. cbn [part_fails]. destruct (reparse Y KBlock [TGroup Brace ts]) as [b|] eqn:Eb; [|reflexivity].
  pose proof (node_ends O lk (reparse Y) KBlock b) as H. cbn [part_failure] in H.
  destruct (visit_node O lk (reparse Y) KBlock b) as [c| |] eqn:E; cbn [bind].
  - unfold visit_node in E. apply substitutes in E. apply (printed_block _ _ _ L) in E as (inside & ->).
    destruct (tokens_failure _ _ _ _) as [[]|]; [discriminate H..|]. eexists; reflexivity.
  - destruct (tokens_failure _ _ _ _) as [[]|]; [|discriminate H|destruct H; discriminate]. injection H as ->. reflexivity.
  - destruct (tokens_failure _ _ _ _) as [[]|]; [discriminate H| |destruct H; discriminate]. injection H as ->. reflexivity.
Qed.
Lemma visit_ends lk l : ends_as (visit_block O lk (reparse Y) l) (first_of (part_fails lk) (block_parts l)).
Proof.
  apply all_parts_end; [exact (node_ends O lk (reparse Y))|exact (name_ends O lk (reparse Y))|exact (abi_ends O lk (reparse Y))|exact (attrs_ends O lk (reparse Y))|exact (part_ends lk)].
Qed.

Lemma part_alike p p' : flat_part p = flat_part p' -> part_in D p -> part_in D p' -> part_fails lookup p = part_fails lookup' p'.
Proof.
  intros E H H'. destruct p as [k ts|x|l|v s|ts], p' as [k' ts'|x'|l'|v' s'|ts']; try discriminate E; cbn [flat_part part_in part_fails part_failure] in *.
  - injection E as <- E. apply tokens_failure_alike; [|split; [exact H|split; [exact H'|exact E]]]. intros a b. apply accepted_alike, (through_a_node _ _ _ L).
  - injection E as <-. apply tokens_failure_alike; [|apply alike_refl, (in_ident _ _ _ L)]. intros a b Hab. rewrite (through_an_ident _ _ _ L _ _ Hab). reflexivity.
  - injection E as E. apply (failure_alike (Forall2 shaped)); [exact accepted_shaped|apply shaped_stages, attrs_shaped; assumption..].
  - injection E as <- <-. apply tokens_failure_alike; [|apply alike_refl, (in_literal _ _ _ L)]. intros a b Hab. rewrite (through_a_lit_str _ _ _ L _ _ Hab). reflexivity.
  - injection E as E. assert (Hab : alike D [TGroup Brace ts] [TGroup Brace ts']) by (split; [exact H|split; [exact H'|apply fgroup; [exact E|reflexivity]]]).
    pose proof (through_a_node _ _ _ L KBlock _ _ Hab) as Hp. destruct (reparse Y KBlock [TGroup Brace ts]), (reparse Y KBlock [TGroup Brace ts']); try contradiction; [|reflexivity].
    apply tokens_failure_alike; [|exact Hp]. intros a b. apply accepted_alike, (through_a_node _ _ _ L).
Qed.
Lemma parts_alike l l' : map flat_part l = map flat_part l' -> Forall (part_in D) l -> Forall (part_in D) l' ->
  first_of (part_fails lookup) l = first_of (part_fails lookup') l'.
Proof.
  revert l'. induction l as [|p l IH]; intros [|p' l'] E H H'; try discriminate E; [reflexivity|]. cbn [map] in E. injection E as E1 E2.
  inversion H; inversion H'; subst. cbn [first_of]. rewrite (part_alike p p') by assumption. rewrite (IH l') by assumption. reflexivity.
Qed.

(** Blocks. *)
Lemma blocks_alike l l' : (forall x, In x item_keywords -> assoc_str x bs = None) ->
  block_reading l = block_reading l' -> Forall (part_in D) (block_parts l) -> Forall (part_in D) (block_parts l') ->
  same_result (fun a b => flats (block_tokens a) = flats (block_tokens b)) (visit_block O lookup (reparse Y) l) (visit_block O lookup' (reparse Y) l').
Proof.
  intros Hk E H H'. unfold block_reading in E. injection E as E1 E2.
  assert (Hk' : forall x, In x item_keywords -> lookup' x = None).
  { intros x Hx. pose proof (assoc_alike D x _ _ Hb) as Ha. rewrite (Hk x Hx) in Ha. unfold lookup'. destruct (assoc_str x bs'); [contradiction|reflexivity]. }
  pose proof (visit_ends lookup l) as V. pose proof (visit_ends lookup' l') as V'. rewrite <- (parts_alike _ _ E2 H H') in V'.
  destruct (first_of (part_fails lookup) (block_parts l)) as [[e|p]|]; cbn [ends_as] in V, V'.
  - rewrite V, V'. reflexivity.
  - rewrite V, V'. reflexivity.
  - destruct V as (a & V), V' as (b & V'). rewrite V, V'. cbn [same_result].
    pose proof (block_flat O lookup (reparse Y) (printed_node _ _ _ L) (printed_ident _ _ _ L) (printed_lit_str _ _ _ L) Hk _ _ V) as F.
    pose proof (block_flat O lookup' (reparse Y) (printed_node _ _ _ L) (printed_ident _ _ _ L) (printed_lit_str _ _ _ L) Hk' _ _ V') as F'.
    rewrite F, F'. apply sub_alike. exact E1.
Qed.
End Lookups.

(** ** Warnings *)
Section Warn.
Context (prefix : str).
(** The visitor on what is left of the trees: the flag says whether the node is deprecated. *)
Definition flat_process (ws : list warning) (attrs : list attr) (deprecated : bool) : list warning * list attr :=
  match pop ws with
  | None => (ws, attrs)
  | Some (w, ws') => if deprecated then (ws, attrs) else (ws', attrs ++ [to_attribute (with_prefix prefix w)])
  end.
Fixpoint flat_visit (ws : list warning) (t : tree) : list warning * tree :=
  match t with
  | DTok t => (ws, DTok t)
  | DGroup d l => let (ws', l') := visit_each flat_visit ws l in (ws', DGroup d l')
  | DNode a b l =>
      let (ws1, a') := flat_process ws a b in
      let (ws2, l') := visit_each flat_visit ws1 l in
      (ws2, DNode a' b l')
  end.
Lemma each_app {A} (v : list warning -> A -> list warning * A) a : forall ws b, visit_each v ws (a ++ b) =
  let (ws1, a') := visit_each v ws a in let (ws2, b') := visit_each v ws1 b in (ws2, a' ++ b').
Proof.
  induction a as [|x a IH]; intros ws b; cbn [app visit_each]; [destruct (visit_each v ws b); reflexivity|].
  destruct (v ws x) as [ws1 x']. rewrite IH. destruct (visit_each v ws1 a) as [ws2 a']. destruct (visit_each v ws2 b); reflexivity.
Qed.
Lemma attrs_flats l : flats (attrs_tokens l) = attrs_tokens (map flat_attr l).
Proof.
  unfold attrs_tokens. induction l as [|a l IH]; [reflexivity|]. cbn [flat_map map]. rewrite flats_app, IH. f_equal. unfold attr_tokens. cbn [flat_attr is_inner meta]. destruct a as [i m]. cbn [is_inner meta flat_attr]. destruct i; reflexivity.
Qed.
Lemma toks_visit ws l : visit_each flat_visit ws (map DTok l) = (ws, map DTok l).
Proof. induction l as [|t l IH]; [reflexivity|]. cbn [map visit_each flat_visit]. rewrite IH. reflexivity. Qed.
Lemma toks_tokens l : forest_tokens (map DTok l) = l.
Proof. induction l as [|t l IH]; [reflexivity|]. unfold forest_tokens in *. cbn [map flat_map tree_tokens app]. rewrite IH. reflexivity. Qed.
Definition matches (ws : list warning) (r : list warning * list tt) (f : forest) : Prop :=
  let (ws', f') := visit_each flat_visit ws f in fst r = ws' /\ flats (snd r) = forest_tokens f'.
Lemma forest_visit f : forall ws,
  matches ws (let (ws', f') := visit_each (visit_tree prefix) ws f in (ws', forest_tokens f')) (flat_forest f).
Proof.
  assert (Hl : forall f, Forall (fun t => forall ws, matches ws (let (ws', t') := visit_tree prefix ws t in (ws', tree_tokens t')) (flat_tree t)) f ->
     forall ws, matches ws (let (ws', f') := visit_each (visit_tree prefix) ws f in (ws', forest_tokens f')) (flat_forest f)).
  { intros g. induction 1 as [|t g Ht _ IH]; intros ws; [split; reflexivity|]. unfold flat_forest. cbn [flat_map visit_each]. specialize (Ht ws). unfold matches in *. rewrite each_app.
    destruct (visit_tree prefix ws t) as [ws1 t']. destruct (visit_each flat_visit ws (flat_tree t)) as [ws1' l1]. destruct Ht as [E1 E2]. cbn [fst snd] in E1, E2. subst ws1'.
    specialize (IH ws1). unfold flat_forest in IH. destruct (visit_each (visit_tree prefix) ws1 g) as [ws2 g']. destruct (visit_each flat_visit ws1 (flat_map flat_tree g)) as [ws2' l2].
    destruct IH as [E3 E4]. split; [exact E3|]. cbn [snd] in *. unfold forest_tokens in *. cbn [flat_map]. rewrite flats_app, flat_map_app, E2, E4. reflexivity. }
  apply Hl, Forall_forall. intros t _. clear f. induction t as [t|d l IH|a b l IH] using tree_ind'; intros ws.
  - cbn [visit_tree flat_tree]. unfold matches. rewrite toks_visit, toks_tokens. split; [reflexivity|]. cbn. unfold flats. cbn [flat_map]. apply app_nil_r.
  - pose proof (Hl _ IH ws) as H. cbn [visit_tree]. unfold matches in *.
    destruct (visit_each (visit_tree prefix) ws l) as [ws1 l1]. unfold flat_forest in H.
    destruct d; cbn [flat_tree visit_each flat_visit]; destruct (visit_each flat_visit ws (flat_map flat_tree l)) as [ws2 l2]; destruct H as [E1 E2]; cbn [fst snd] in *;
      (split; [exact E1|]); unfold forest_tokens in *; cbn [tree_tokens flat_map]; unfold flats in *; cbn [flat_map flat]; rewrite ?app_nil_r, ?E2; reflexivity.
  - cbn [visit_tree flat_tree]. unfold matches. cbn [visit_each flat_visit].
    assert (Hp : flat_process ws (map flat_attr a) (existsb (fun a => names_deprecated (meta a)) a || b) =
       (fst (process_deprecations prefix ws a b), map flat_attr (snd (process_deprecations prefix ws a b)))).
    { unfold flat_process, process_deprecations. destruct (pop ws) as [[w ws']|]; [|reflexivity]. destruct (existsb _ a || b); [reflexivity|].
      cbn [fst snd]. rewrite map_app. reflexivity. }
    rewrite Hp. destruct (process_deprecations prefix ws a b) as [ws1 a1]. cbn [fst snd].
    pose proof (Hl _ IH ws1) as H. unfold matches, flat_forest in H. destruct (visit_each (visit_tree prefix) ws1 l) as [ws2 l1].
    destruct (visit_each flat_visit ws1 (flat_map flat_tree l)) as [ws3 l2]. destruct H as [E1 E2]. cbn [fst snd] in *. split; [exact E1|].
    unfold forest_tokens in *. cbn [tree_tokens flat_map]. rewrite flats_app, attrs_flats, E2, app_nil_r. reflexivity.
Qed.
End Warn.
Lemma forest_flat f : flats (forest_tokens f) = forest_tokens (flat_forest f).
Proof.
  assert (Hl : forall f, Forall (fun t => flats (tree_tokens t) = forest_tokens (flat_tree t)) f -> flats (forest_tokens f) = forest_tokens (flat_forest f)).
  { intros g. induction 1 as [|t g Ht _ IH]; [reflexivity|]. unfold flat_forest, forest_tokens in *. cbn [flat_map]. rewrite flats_app, flat_map_app, Ht, IH. reflexivity. }
  apply Hl, Forall_forall. intros t _. clear f. induction t as [t|d l IH|a b l IH] using tree_ind'.
  - cbn [tree_tokens flat_tree]. rewrite toks_tokens. unfold flats. cbn [flat_map]. apply app_nil_r.
  - apply Hl in IH. unfold forest_tokens, flat_forest, flats in *. destruct d; cbn [tree_tokens flat_tree flat_map flat]; rewrite ?app_nil_r, IH; reflexivity.
  - apply Hl in IH. unfold forest_tokens, flat_forest in *. cbn [tree_tokens flat_tree flat_map]. rewrite flats_app, attrs_flats, IH, app_nil_r. reflexivity.
Qed.
Lemma emit_flat s f g : flat_forest f = flat_forest g -> flats (forest_tokens (emit s f)) = flats (forest_tokens (emit s g)).
Proof.
  intros E. unfold emit. destruct (warnings s) as [|w ws]; [rewrite !forest_flat, E; reflexivity|].
  pose proof (forest_visit (s_prefix s) f (rev (w :: ws))) as H1. pose proof (forest_visit (s_prefix s) g (rev (w :: ws))) as H2. rewrite <- E in H2.
  unfold matches in *. destruct (visit_each (flat_visit (s_prefix s)) _ (flat_forest f)) as [ws1 l].
  destruct (visit_each (visit_tree (s_prefix s)) _ f) as [ws2 f']. destruct (visit_each (visit_tree (s_prefix s)) _ g) as [ws3 g'].
  destruct H1 as [_ H1], H2 as [_ H2]. cbn [snd] in *. congruence.
Qed.
