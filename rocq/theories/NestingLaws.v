(** Laws of nested calls: naming an intermediate value, and flattening [concat]. *)
From Coq Require Import String Permutation.
From Verif Require Import Base BaseFacts Token Types TypesProofs Values Ast Env Resolve Eval SpecElab SpecScope SpecPrograms SpecCalls SpecFunctions SpecNaming SpecNesting
  ElabProofs ElabFacts BuiltinFacts BuiltinCasts CallFacts MoreCallFacts ResolveFacts FunctionProofs NestingProofs NestingRuns.
Open Scope list_scope.

(** ** Replacing an expression by one with the same type and meaning *)
Lemma kind_call G id name args raw : kind G (ECall id name args raw) =
  if reads_source name raw then Some (if str_eqb name (txt "raw") then TyTokens else TyIdent)
  else match all_some (map (kind G) args) with Some ss => result_type name ss | None => None end.
Proof.
  unfold kind. cbn [synth]. destruct (reads_source name raw); [reflexivity|].
  assert (E : all_some (map (fun e => option_map fst (synth G e)) args) = option_map (map fst) (all_some (map (synth G) args))).
  { induction args as [|a args IH]; [reflexivity|]. cbn [map all_some]. destruct (synth G a) as [sk|]; [|reflexivity]. cbn [option_map]. rewrite IH. destruct (all_some (map (synth G) args)); reflexivity. }
  rewrite E. destruct (all_some (map (synth G) args)) as [sk|]; [|reflexivity]. cbn [option_map]. destruct (result_type name (map fst sk)); reflexivity.
Qed.
Lemma kind_value G id v : kind G (EValue id v) = Some (static_type G v).
Proof. reflexivity. Qed.

Lemma takes_raw_source name (raw : option (N * list tt)) : reads_source name raw = true -> takes_raw name.
Proof. unfold reads_source. destruct raw; [|discriminate]. intros H. apply orb_prop in H as [H|H]; apply str_eqb_eq in H; subst; [left|right]; reflexivity. Qed.
Lemma reads_source_same name (raw raw' : option (N * list tt)) : (takes_raw name -> option_map snd raw = option_map snd raw') -> reads_source name raw = reads_source name raw'.
Proof.
  intros H. unfold reads_source. destruct (str_eqb name (txt "raw") || str_eqb name (txt "normalize")) eqn:E; [|destruct raw, raw'; reflexivity].
  assert (Ht : takes_raw name) by (apply orb_prop in E as [E|E]; apply str_eqb_eq in E; subst; [left|right]; reflexivity).
  specialize (H Ht). destruct raw, raw'; try discriminate; reflexivity.
Qed.
Lemma meaning_same O seed name (raw raw' : option (list tt)) vs : (takes_raw name -> raw = raw') -> call_meaning O seed name raw vs = call_meaning O seed name raw' vs.
Proof.
  intros H. unfold call_meaning. destruct (assoc_str name (functions O seed)) as [f|] eqn:E; [|reflexivity]. unfold functions in E. cbn [assoc_str] in E.
  repeat match type of E with
      | (if str_eqb name ?x then _ else _) = _ => destruct (str_eqb name x) eqn:?Hx; [apply str_eqb_eq in Hx; subst name; injection E as <-|clear Hx]
      end; try reflexivity; [rewrite H by (right; reflexivity)|rewrite H by (left; reflexivity)|discriminate]; reflexivity.
Qed.

Lemma same_but_raw_means O seed G bs : forall d d', same_but_raw d d' -> kind G d = kind G d' /\ denote O seed bs d = denote O seed bs d'.
Proof.
  induction d as [id v|id name args raw IH] using expr_ind'; intros d' H; inversion H as [|? id' ? ? args' ? raw' Ha Hr]; subst; [split; reflexivity|].
  assert (HF : map (kind G) args = map (kind G) args' /\ mapM (denote O seed bs) args = mapM (denote O seed bs) args').
  { clear Hr H. revert args' Ha. induction IH as [|a args Hx _ IH]; intros args' Ha; inversion Ha as [|? b ? args2 H1 H2]; subst; [split; reflexivity|].
    destruct (Hx b H1) as [E1 E2]. destruct (IH args2 H2) as [E3 E4]. split; [cbn [map]; congruence|]. cbn [mapM]. rewrite E2, E4. reflexivity. }
  destruct HF as [H1 H2]. rewrite !kind_call. cbn [denote]. rewrite (reads_source_same name raw raw' Hr), H1, H2. split; [reflexivity|].
  destruct (reads_source name raw'); [apply meaning_same; exact Hr|]. destruct (mapM (denote O seed bs) args'); [apply meaning_same; exact Hr|reflexivity|reflexivity].
Qed.

Lemma expanded_means O seed G bs a d t v :
  assoc_str a G = Some t -> kind G d = Some t -> 
  (forall e e', expanded a d e e' -> kind G e = kind G e') /\
  (assoc_str a bs = Some v -> denote O seed bs d = Ok v -> forall e e', expanded a d e e' -> denote O seed bs e = denote O seed bs e').
Proof.
  intros Ha Hk. split.
  - induction e as [id w|id name args raw IH] using expr_ind'; intros e' H; inversion H as [? d' Hs| |? id' ? ? args' ? raw' Hargs Hr]; subst.
    + rewrite kind_value. cbn [static_type]. rewrite Ha, <- Hk. apply (same_but_raw_means O seed G bs). exact Hs.
    + reflexivity.
    + rewrite !kind_call, (reads_source_same name raw raw' Hr). assert (E : map (kind G) args = map (kind G) args'); [|rewrite E; reflexivity].
      clear Hr H. revert args' Hargs. induction IH as [|x args Hx _ IH]; intros args' Hargs; inversion Hargs as [|? b ? args2 H1 H2]; subst; [reflexivity|]. cbn [map]. rewrite (Hx b H1), (IH args2 H2). reflexivity.
  - intros Hv Hd. induction e as [id w|id name args raw IH] using expr_ind'; intros e' H; inversion H as [? d' Hs| |? id' ? ? args' ? raw' Hargs Hr]; subst.
    + cbn [denote lookup_value]. rewrite Hv, <- Hd. apply (same_but_raw_means O seed G bs). exact Hs.
    + reflexivity.
    + cbn [denote]. rewrite (reads_source_same name raw raw' Hr). assert (E : mapM (denote O seed bs) args = mapM (denote O seed bs) args').
      { clear Hr H. revert args' Hargs. induction IH as [|x args Hx _ IH]; intros args' Hargs; inversion Hargs as [|? b ? args2 H1 H2]; subst; [reflexivity|]. cbn [mapM]. rewrite (Hx b H1), (IH args2 H2). reflexivity. }
      rewrite E. destruct (reads_source name raw'); [apply meaning_same; exact Hr|]. destruct (mapM (denote O seed bs) args'); [apply meaning_same; exact Hr|reflexivity|reflexivity].
Qed.

(** ** Naming *)
Lemma kind_fresh G b u e : ~ In b (mentions e) -> kind ((b, u) :: G) e = kind G e.
Proof.
  induction e as [id v|id name args raw IH] using expr_ind'; intros Hb.
  - rewrite !kind_value. destruct v; try reflexivity. cbn [static_type assoc_str]. rewrite (str_eqb_neq x b); [reflexivity|]. intros ->. apply Hb. left. reflexivity.
  - rewrite !kind_call. assert (E : map (kind ((b, u) :: G)) args = map (kind G) args); [|rewrite E; reflexivity].
    cbn [mentions] in Hb. clear raw name. induction IH as [|x args Hx _ IH]; [reflexivity|]. cbn [map flat_map] in *.
    rewrite Hx, IH; [reflexivity|intros H; apply Hb; apply in_or_app; right; exact H|intros H; apply Hb; apply in_or_app; left; exact H].
Qed.
Lemma assoc_snoc {A} x (bs : list (str * A)) b v : x <> b -> assoc_str x (bs ++ [(b, v)]) = assoc_str x bs.
Proof. intros H. induction bs as [|[y w] bs IH]; cbn [app assoc_str]; [rewrite (str_eqb_neq x b H); reflexivity|]. destruct (str_eqb x y); [reflexivity|exact IH]. Qed.
Lemma assoc_kept {A} x (bs bs' : list (str * A)) v : assoc_str x bs = Some v -> assoc_str x (bs ++ bs') = Some v.
Proof. induction bs as [|[y w] bs IH]; cbn [app assoc_str]; [discriminate|]. destruct (str_eqb x y); [auto|exact IH]. Qed.
Lemma assoc_new {A} x (bs : list (str * A)) v : assoc_str x bs = None -> assoc_str x (bs ++ [(x, v)]) = Some v.
Proof. induction bs as [|[y w] bs IH]; cbn [app assoc_str]; [rewrite str_eqb_refl; reflexivity|]. destruct (str_eqb x y); [discriminate|exact IH]. Qed.
Lemma denote_fresh O seed bs b v e : ~ In b (mentions e) -> denote O seed (bs ++ [(b, v)]) e = denote O seed bs e.
Proof.
  induction e as [id w|id name args raw IH] using expr_ind'; intros Hb.
  - cbn [denote]. destruct w; try reflexivity. cbn [lookup_value]. rewrite assoc_snoc; [reflexivity|]. intros ->. apply Hb. left. reflexivity.
  - cbn [denote]. assert (E : mapM (denote O seed (bs ++ [(b, v)])) args = mapM (denote O seed bs) args); [|rewrite E; reflexivity].
    cbn [mentions] in Hb. clear raw name. induction IH as [|x args Hx _ IH]; [reflexivity|]. cbn [mapM flat_map] in *.
    rewrite Hx, IH; [reflexivity|intros H; apply Hb; apply in_or_app; right; exact H|intros H; apply Hb; apply in_or_app; left; exact H].
Qed.

Lemma first_misfit_kind G a e items : first_misfit G ((a, e) :: items) =
  match kind G e with
  | None => Some (misfit e)
  | Some t => match assoc_str a G with Some _ => Some (RedefinedNameError a) | None => first_misfit ((a, t) :: G) items end
  end.
Proof. unfold kind. cbn [first_misfit]. destruct (synth G e) as [[t k]|]; reflexivity. Qed.

Section Naming.
Context (O : oracles) (seed first : N).
Let env := new_initialized O seed first.

Lemma naming_misfit a d t post : forall post' G, expanded_items a d post post' -> assoc_str a G = Some t -> kind G d = Some t ->
  (forall y, In y (mentions d) -> ~ In y (map fst post)) -> first_misfit G post = first_misfit G post'.
Proof.
  induction post as [|[b e] post IH]; intros post' G H Ha Hk Hm; inversion H as [|? [b' e'] ? post2 [Hb He] H2]; subst; [reflexivity|]. cbn [fst snd] in Hb, He. subst b'.
  rewrite !first_misfit_kind. pose proof (proj1 (expanded_means O seed G [] a d t (VIdent []) Ha Hk) e e' He) as E. rewrite <- E.
  destruct (kind G e) as [u|] eqn:Ek.
  - destruct (assoc_str b G) eqn:Eb; [reflexivity|]. apply IH; [exact H2| | |intros y Hy Hin; apply (Hm y Hy); right; exact Hin].
    + cbn [assoc_str]. rewrite (str_eqb_neq a b); [exact Ha|]. intros ->. congruence.
    + rewrite kind_fresh; [exact Hk|]. intros Hin. apply (Hm b Hin). left. reflexivity.
  - inversion He; subst; try discriminate. reflexivity.
Qed.

Lemma naming_denote a d v post : forall post' bs, expanded_items a d post post' -> assoc_str a bs = Some v -> denote O seed bs d = Ok v ->
  (forall y, In y (mentions d) -> ~ In y (map fst post)) -> denote_items O seed bs post = denote_items O seed bs post'.
Proof.
  induction post as [|[b e] post IH]; intros post' bs H Ha Hd Hm; inversion H as [|? [b' e'] ? post2 [Hb He] H2]; subst; [reflexivity|]. cbn [fst snd] in Hb, He. subst b'.
  cbn [denote_items].
  assert (E : denote O seed bs e = denote O seed bs e').
  { clear - Ha Hd He. revert e' He. induction e as [id w|id name args raw IH] using expr_ind'; intros e' H; inversion H as [? d' Hs| |? id' ? ? args' ? raw' Hargs Hr]; subst.
    + cbn [denote lookup_value]. rewrite Ha, <- Hd. apply (same_but_raw_means O seed [] bs). exact Hs.
    + reflexivity.
    + cbn [denote]. rewrite (reads_source_same name raw raw' Hr). assert (E : mapM (denote O seed bs) args = mapM (denote O seed bs) args').
      { clear Hr H. revert args' Hargs. induction IH as [|x args Hx _ IH]; intros args' Hargs; inversion Hargs as [|? b ? args2 H1 H2]; subst; [reflexivity|]. cbn [mapM]. rewrite (Hx b H1), (IH args2 H2). reflexivity. }
      rewrite E. destruct (reads_source name raw'); [apply meaning_same; exact Hr|]. destruct (mapM (denote O seed bs) args'); [apply meaning_same; exact Hr|reflexivity|reflexivity]. }
  rewrite <- E. destruct (denote O seed bs e) as [w| |]; [|reflexivity|reflexivity]. cbn [bind].
  apply IH; [exact H2|apply assoc_kept; exact Ha| |intros y Hy Hin; apply (Hm y Hy); right; exact Hin].
  rewrite denote_fresh; [exact Hd|]. intros Hin. apply (Hm b Hin). left. reflexivity.
Qed.

Lemma misfit_app pre rest rest' : (forall G, (forall x, assoc_str x G <> None -> In x (map fst pre)) -> first_misfit G rest = first_misfit G rest') ->
  first_misfit [] (pre ++ rest) = first_misfit [] (pre ++ rest').
Proof.
  intros H. cut (forall p G, (forall x, assoc_str x G <> None \/ In x (map fst p) -> In x (map fst pre)) -> first_misfit G (p ++ rest) = first_misfit G (p ++ rest')).
  { intros Hc. apply Hc. intros x [Hx|Hx]; [contradiction Hx; reflexivity|exact Hx]. }
  induction p as [|[b e] p IH]; intros G HG; cbn [app]; [apply H; intros x Hx; apply HG; left; exact Hx|].
  rewrite !first_misfit_kind. destruct (kind G e) as [u|]; [|reflexivity]. destruct (assoc_str b G) eqn:Eb; [reflexivity|]. apply IH. intros x Hx. apply HG.
  cbn [assoc_str map fst In] in *. destruct (str_eqb x b) eqn:E; [apply str_eqb_eq in E; subst; right; left; reflexivity|]. destruct Hx as [Hx|Hx]; [left; exact Hx|right; right; exact Hx].
Qed.
Lemma denote_app bs pre rest : denote_items O seed bs (pre ++ rest) = let! bs' := denote_items O seed bs pre in denote_items O seed bs' rest.
Proof. revert bs. induction pre as [|[b e] pre IH]; intros bs; [reflexivity|]. cbn [app denote_items]. destruct (denote O seed bs e); [apply IH|reflexivity|reflexivity]. Qed.
Lemma denote_names pre : forall bs bs', denote_items O seed bs pre = Ok bs' -> map fst bs' = map fst bs ++ map fst pre.
Proof.
  induction pre as [|[b e] pre IH]; intros bs bs' H; cbn [denote_items] in H; [injection H as <-; rewrite app_nil_r; reflexivity|].
  destruct (denote O seed bs e) as [v| |]; try discriminate. cbn [bind] in H. rewrite (IH _ _ H), map_app. cbn [map fst]. rewrite <- app_assoc. reflexivity.
Qed.

Theorem naming_independent pre a d post post' c :
  NoDup (item_ids (pre ++ (a, d) :: post)) -> NoDup (item_ids (pre ++ (a, d) :: post')) ->
  independent_items [] (pre ++ (a, d) :: post) = true -> independent_items [] (pre ++ (a, d) :: post') = true ->
  expanded_items a d post post' -> (forall y, In y (mentions d) -> y <> a /\ ~ In y (map fst post)) ->
  make_substitutions O env {| spec_items := pre ++ (a, d) :: post; is_comma_used := c |} =
  make_substitutions O env {| spec_items := pre ++ (a, d) :: post'; is_comma_used := c |}.
Proof.
  intros H1 H2 Hi Hi' He Hm. unfold env. rewrite !definitions_mean by assumption. cbn [spec_items].
  assert (Hma : ~ In a (mentions d)) by (intros Hin; exact (proj1 (Hm a Hin) eq_refl)).
  assert (Hf : first_misfit [] (pre ++ (a, d) :: post) = first_misfit [] (pre ++ (a, d) :: post')).
  { apply misfit_app. intros G _. rewrite !first_misfit_kind. destruct (kind G d) as [t|] eqn:Ek; [|reflexivity]. destruct (assoc_str a G) eqn:Ea; [reflexivity|].
    eapply naming_misfit; [exact He|cbn [assoc_str]; rewrite str_eqb_refl; reflexivity|rewrite kind_fresh; [exact Ek|exact Hma]|intros y Hy; exact (proj2 (Hm y Hy))]. }
  rewrite <- Hf. destruct (first_misfit [] (pre ++ (a, d) :: post)) as [er|] eqn:Efm; [reflexivity|].
  rewrite !denote_app. destruct (denote_items O seed [] pre) as [bs| |] eqn:Eb; [|reflexivity|reflexivity]. cbn [bind denote_items].
  destruct (denote O seed bs d) as [v| |] eqn:Ed; [|reflexivity|reflexivity]. cbn [bind].
  assert (Hfresh : assoc_str a bs = None).
  { apply assoc_str_None. rewrite (denote_names _ _ _ Eb). cbn [map app]. clear - Efm. intros Hin.
    assert (Hg : forall p G, first_misfit G (p ++ (a, d) :: post) = None -> (In a (map fst p) \/ assoc_str a G <> None) -> False).
    { induction p as [|[b e] p IH]; intros G H Hx; cbn [app] in H; rewrite first_misfit_kind in H.
      - destruct Hx as [[]|Hx]. destruct (kind G d); [|discriminate]. destruct (assoc_str a G); [discriminate|]. apply Hx. reflexivity.
      - destruct (kind G e) as [u|]; [|discriminate]. destruct (assoc_str b G) eqn:Eb; [discriminate|]. apply (IH _ H). cbn [assoc_str map fst In] in *.
        destruct (str_eqb a b) eqn:E; [right; discriminate|]. destruct Hx as [[->|Hx]|Hx]; [rewrite str_eqb_refl in E; discriminate|left; exact Hx|right; exact Hx]. }
    exact (Hg pre [] Efm (or_introl Hin)). }
  eapply naming_denote; [exact He|apply assoc_new; exact Hfresh|rewrite denote_fresh; [exact Ed|exact Hma]|intros y Hy; exact (proj2 (Hm y Hy))].
Qed.
End Naming.

(** ** Flattening [concat] *)
Section Flat.
Context (O : oracles) (seed first : N).
Let env := new_initialized O seed first.

Lemma misfit_at pre rest rest' : (forall G, types_after [] pre = Some G -> first_misfit G rest = first_misfit G rest') ->
  first_misfit [] (pre ++ rest) = first_misfit [] (pre ++ rest').
Proof.
  generalize (@nil (str * ty)) as G. induction pre as [|[b e] pre IH]; intros G H; cbn [app]; [apply H; reflexivity|].
  cbn [first_misfit types_after] in *. destruct (synth G e) as [[t k]|]; [|reflexivity]. destruct (assoc_str b G); [reflexivity|]. apply IH. exact H.
Qed.

Lemma independent_app pre rest G G' : types_after G pre = Some G' -> independent_items G (pre ++ rest) = true -> independent_items G' rest = true.
Proof.
  revert G. induction pre as [|[b e] pre IH]; intros G H Hi; cbn [app types_after independent_items] in *; [injection H as <-; exact Hi|].
  apply andb_prop in Hi as [_ Hi]. destruct (synth G e) as [[t k]|]; [|discriminate]. exact (IH _ H Hi).
Qed.

(** Definitions that fit have values of the types they fit with. *)
Lemma types_after_ok pre rest : forall G bs G' bs', ctx_ok G (rev bs) -> NoDup (map fst bs) -> independent_items G (pre ++ rest) = true ->
  types_after G pre = Some G' -> denote_items O seed bs pre = Ok bs' -> NoDup (map fst bs ++ map fst pre) ->
  ctx_ok G' (rev bs') /\ NoDup (map fst bs').
Proof.
  induction pre as [|[b e] pre IH]; intros G bs G' bs' Hc Hn Hi Ht Hd Hnd; cbn [app types_after denote_items independent_items] in *.
  - injection Ht as <-. injection Hd as <-. split; assumption.
  - apply andb_prop in Hi as [Hi Hr]. pose proof (nested_means O seed first G bs Hc Hn e Hi) as H. destruct (synth G e) as [[t k]|]; [|discriminate].
    destruct H as (_ & _ & Hty & _). cbn [fst] in Hty. destruct (denote O seed bs e) as [v| |]; try discriminate. cbn [bind] in Hd.
    assert (Hm : map fst (bs ++ [(b, v)]) ++ map fst pre = map fst bs ++ map fst ((b, e) :: pre)) by (rewrite map_app, <- app_assoc; reflexivity).
    eapply (IH ((b, t) :: G) (bs ++ [(b, v)])); [| |exact Hr|exact Ht|exact Hd|rewrite Hm; exact Hnd].
    + rewrite rev_app_distr. cbn [rev app]. constructor; [split; [reflexivity|exact (Hty v eq_refl)]|exact Hc].
    + assert (Hnd' : NoDup (map fst (bs ++ [(b, v)]) ++ map fst pre)) by (rewrite Hm; exact Hnd). clear - Hnd'. induction (map fst (bs ++ [(b, v)])) as [|x l IHl]; [constructor|]. inversion Hnd' as [|? ? H1 H2]; subst. constructor; [intros H; apply H1; apply in_or_app; left; exact H|apply IHl; exact H2].
Qed.

Lemma misfit_names pre rest : forall G, first_misfit G (pre ++ rest) = None -> NoDup (map fst pre) /\ (forall x, In x (map fst pre) -> assoc_str x G = None).
Proof.
  induction pre as [|[b e] pre IH]; intros G H; cbn [app] in H; [split; [constructor|intros x []]|]. rewrite first_misfit_kind in H.
  destruct (kind G e) as [t|]; [|discriminate]. destruct (assoc_str b G) eqn:Eb; [discriminate|]. destruct (IH _ H) as [H1 H2]. cbn [map fst]. split.
  - constructor; [|exact H1]. intros Hin. specialize (H2 b Hin). cbn [assoc_str] in H2. rewrite str_eqb_refl in H2. discriminate.
  - intros x [<-|Hx]; [exact Eb|]. specialize (H2 x Hx). cbn [assoc_str] in H2. destruct (str_eqb x b); [discriminate|exact H2].
Qed.
Lemma misfit_types pre rest : forall G, first_misfit G (pre ++ rest) = None -> exists G', types_after G pre = Some G' /\ first_misfit G' rest = None.
Proof.
  induction pre as [|[b e] pre IH]; intros G H; cbn [app first_misfit types_after] in *; [exists G; auto|].
  destruct (synth G e) as [[t k]|]; [|discriminate]. destruct (assoc_str b G); [discriminate|]. exact (IH _ H).
Qed.

(** Two expressions of the same type and meaning may be exchanged. *)
Theorem exchange pre a e e' post c c' :
  NoDup (item_ids (pre ++ (a, e) :: post)) -> NoDup (item_ids (pre ++ (a, e') :: post)) ->
  independent_items [] (pre ++ (a, e) :: post) = true -> independent_items [] (pre ++ (a, e') :: post) = true ->
  (forall G, types_after [] pre = Some G -> kind G e = kind G e' /\ (kind G e = None -> misfit e = misfit e') /\
    (forall t, kind G e = Some t -> forall bs, denote_items O seed [] pre = Ok bs -> ctx_ok G (rev bs) -> NoDup (map fst bs) -> denote O seed bs e = denote O seed bs e')) ->
  make_substitutions O env {| spec_items := pre ++ (a, e) :: post; is_comma_used := c |} =
  make_substitutions O env {| spec_items := pre ++ (a, e') :: post; is_comma_used := c' |}.
Proof.
  intros H1 H2 Hi Hi' H. unfold env. rewrite !definitions_mean by assumption. cbn [spec_items].
  assert (Hf : first_misfit [] (pre ++ (a, e) :: post) = first_misfit [] (pre ++ (a, e') :: post)).
  { apply misfit_at. intros G HG. destruct (H G HG) as (Hk & Hm & _). rewrite !first_misfit_kind, <- Hk. destruct (kind G e); [reflexivity|]. rewrite Hm; reflexivity. }
  rewrite <- Hf. destruct (first_misfit [] (pre ++ (a, e) :: post)) as [er|] eqn:Efm; [reflexivity|].
  rewrite !denote_app. destruct (denote_items O seed [] pre) as [bs| |] eqn:Eb; [|reflexivity|reflexivity]. cbn [bind denote_items].
  destruct (misfit_types _ _ _ Efm) as (G & HG & Hrest). destruct (H G HG) as (Hk & _ & Hd).
  destruct (types_after_ok pre ((a, e) :: post) [] [] G bs (Forall2_nil _) (NoDup_nil _) Hi HG Eb (proj1 (misfit_names _ _ _ Efm))) as [Hc Hn].
  rewrite first_misfit_kind in Hrest. destruct (kind G e) as [t|] eqn:Ek; [|discriminate]. rewrite (Hd t eq_refl bs eq_refl Hc Hn). reflexivity.
Qed.

Theorem exchange_meaning pre a e e' post c c' :
  NoDup (item_ids (pre ++ (a, e) :: post)) -> NoDup (item_ids (pre ++ (a, e') :: post)) ->
  independent_items [] (pre ++ (a, e) :: post) = true -> independent_items [] (pre ++ (a, e') :: post) = true ->
  (forall G, types_after [] pre = Some G -> kind G e = kind G e' /\ (kind G e = None -> misfit e = misfit e')) ->
  (forall bs, denote_items O seed [] pre = Ok bs -> denote O seed bs e = denote O seed bs e') ->
  make_substitutions O env {| spec_items := pre ++ (a, e) :: post; is_comma_used := c |} =
  make_substitutions O env {| spec_items := pre ++ (a, e') :: post; is_comma_used := c' |}.
Proof.
  intros H1 H2 Hi Hi' H Hd. apply exchange; try assumption. intros G HG. destruct (H G HG) as [Hk Hm].
  split; [exact Hk|]. split; [exact Hm|]. intros _ _ bs Hbs _ _. apply Hd, Hbs.
Qed.


Lemma typed_args G bs args ss vs : ctx_ok G (rev bs) -> NoDup (map fst bs) -> forallb (independent G) args = true -> map (kind G) args = map Some ss ->
  mapM (denote O seed bs) args = Ok vs -> map type_of vs = ss.
Proof.
  intros Hc Hn. revert ss vs. induction args as [|x args IH]; intros ss vs Hi Hk Hv; cbn [map mapM forallb] in *.
  - injection Hv as <-. destruct ss; [reflexivity|discriminate].
  - apply andb_prop in Hi as [Hi Hr]. destruct ss as [|s ss]; [discriminate|]. injection Hk as Hk1 Hk2. pose proof (nested_means O seed first G bs Hc Hn x Hi) as H.
    unfold kind in Hk1. destruct (synth G x) as [[t k]|]; [|discriminate]. injection Hk1 as ->. destruct H as (_ & _ & Hty & _).
    destruct (denote O seed bs x) as [v| |]; try discriminate. cbn [bind] in Hv. destruct (mapM (denote O seed bs) args) as [vs'| |]; try discriminate. injection Hv as <-.
    cbn [map]. rewrite (Hty v eq_refl), (IH ss vs' Hr Hk2 eq_refl). reflexivity.
Qed.

Lemma strings_app a b : strings_of (a ++ b) = match strings_of a, strings_of b with Some x, Some y => Some (x ++ y) | _, _ => None end.
Proof.
  unfold strings_of. induction a as [|v a IH]; cbn [app fold_right]; [destruct (fold_right _ _ b); reflexivity|]. rewrite IH.
  destruct v; try reflexivity. destruct (fold_right _ (Some []) a); [|reflexivity]. destruct (fold_right _ (Some []) b); reflexivity.
Qed.
Lemma idents_app a b : idents_of (a ++ b) = match idents_of a, idents_of b with Some x, Some y => Some (x ++ y) | _, _ => None end.
Proof.
  unfold idents_of. induction a as [|v a IH]; cbn [app fold_right]; [destruct (fold_right _ _ b); reflexivity|]. rewrite IH.
  destruct v; try reflexivity. destruct (fold_right _ (Some []) a); [|reflexivity]. destruct (fold_right _ (Some []) b); reflexivity.
Qed.
Lemma strings_typed vs : Forall (fun s => s = TyLitStr) (map type_of vs) -> exists l, strings_of vs = Some l.
Proof.
  induction vs as [|v vs IH]; intros H; [eexists; reflexivity|]. inversion H as [|? ? Hv Hr]; subst. destruct (IH Hr) as [l Hl]. destruct v; try discriminate.
  exists (v :: l). cbn [strings_of fold_right]. fold (strings_of vs). rewrite Hl. reflexivity.
Qed.
Lemma idents_typed vs : Forall (fun s => s = TyIdent) (map type_of vs) -> exists l, idents_of vs = Some l.
Proof.
  induction vs as [|v vs IH]; intros H; [eexists; reflexivity|]. inversion H as [|? ? Hv Hr]; subst. destruct (IH Hr) as [l Hl]. destruct v; try discriminate.
  exists (x :: l). cbn [idents_of fold_right]. fold (idents_of vs). rewrite Hl. reflexivity.
Qed.
Lemma strings_meaning vs l : vs <> [] -> strings_of vs = Some l -> concat_meaning O vs = Ok (VLitStr (List.concat l) []).
Proof.
  intros Hv Hl. destruct vs as [|v vs]; [congruence|]. unfold concat_meaning. rewrite Hl.
  assert (idents_of (v :: vs) = None) as ->; [|reflexivity]. cbn [strings_of idents_of fold_right] in *. destruct v; try discriminate; reflexivity.
Qed.
Lemma idents_meaning vs l : vs <> [] -> idents_of vs = Some l -> concat_meaning O vs = identifier O (List.concat l).
Proof. intros Hv Hl. destruct vs as [|v vs]; [congruence|]. unfold concat_meaning. rewrite Hl. reflexivity. Qed.

Lemma mapM_app_res {A B} (f : A -> res B) l l' : mapM f (l ++ l') = let! a := mapM f l in let! b := mapM f l' in Ok (a ++ b).
Proof.
  induction l as [|x l IH]; cbn [app mapM bind]; [destruct (mapM f l'); reflexivity|]. destruct (f x); [|reflexivity|reflexivity]. cbn [bind]. rewrite IH.
  destruct (mapM f l); [|reflexivity|reflexivity]. cbn [bind]. destruct (mapM f l'); reflexivity.
Qed.

Lemma all_kinds G args t : Forall (fun e => kind G e = Some t) args -> map (kind G) args = map Some (repeat t (List.length args)).
Proof. induction 1 as [|e args H _ IH]; [reflexivity|]. cbn [map List.length repeat]. rewrite H, IH. reflexivity. Qed.
Lemma all_some_map {A} (l : list A) : all_some (map Some l) = Some l.
Proof. induction l; cbn [map all_some]; [reflexivity|]. rewrite IHl. reflexivity. Qed.
Lemma forallb_repeat t n : forallb (ty_eqb t) (repeat t n) = true.
Proof. induction n; cbn; [reflexivity|]. rewrite (proj2 (ty_eqb_eq t t) eq_refl). exact IHn. Qed.
Lemma concat_repeat t n : t = TyIdent \/ t = TyLitStr -> concat_type (repeat t (S n)) = Some t.
Proof.
  intros [->| ->]; unfold concat_type; cbn [repeat].
  - change (TyIdent :: repeat TyIdent n) with (repeat TyIdent (S n)). rewrite forallb_repeat. reflexivity.
  - change (TyLitStr :: repeat TyLitStr n) with (repeat TyLitStr (S n)). rewrite forallb_repeat. reflexivity.
Qed.
Lemma kind_concat G id args raw t : t = TyIdent \/ t = TyLitStr -> args <> [] -> Forall (fun e => kind G e = Some t) args -> kind G (ECall id (txt "concat") args raw) = Some t.
Proof.
  intros Ht Ha Hk. rewrite kind_call. assert (reads_source (txt "concat") raw = false) as -> by (destruct raw; reflexivity).
  rewrite (all_kinds G args t Hk), all_some_map. destruct args as [|x args]; [congruence|]. exact (concat_repeat t (List.length args) Ht).
Qed.
Lemma typed_repeat (t : ty) n : Forall (fun s => s = t) (repeat t n).
Proof. induction n; cbn; constructor; auto. Qed.

Theorem concat_flat pre a post xs ys zs i j raw raw' raw'' t c c' :
  let nested := ECall i (txt "concat") (xs ++ ECall j (txt "concat") ys raw' :: zs) raw in
  let flat := ECall i (txt "concat") (xs ++ ys ++ zs) raw'' in
  NoDup (item_ids (pre ++ (a, nested) :: post)) -> NoDup (item_ids (pre ++ (a, flat) :: post)) ->
  independent_items [] (pre ++ (a, nested) :: post) = true -> independent_items [] (pre ++ (a, flat) :: post) = true ->
  ys <> [] -> (forall G, types_after [] pre = Some G -> Forall (fun e => kind G e = Some t) (xs ++ ys ++ zs)) ->
  t = TyLitStr \/ t = TyIdent /\ (forall bs vs, denote_items O seed [] pre = Ok bs -> mapM (denote O seed bs) ys = Ok vs -> exists w, concat_meaning O vs = Ok w) ->
  make_substitutions O env {| spec_items := pre ++ (a, nested) :: post; is_comma_used := c |} =
  make_substitutions O env {| spec_items := pre ++ (a, flat) :: post; is_comma_used := c' |}.
Proof.
  intros nested flat H1 H2 Hi Hi' Hys Hk Ht. apply exchange; try assumption. intros G HG. specialize (Hk G HG).
  assert (Ht' : t = TyIdent \/ t = TyLitStr) by (destruct Ht as [Ht|[Ht _]]; auto).
  assert (Hkx : Forall (fun e => kind G e = Some t) xs) by (apply Forall_app in Hk as [Hk _]; exact Hk).
  assert (Hky : Forall (fun e => kind G e = Some t) ys) by (apply Forall_app in Hk as [_ Hk]; apply Forall_app in Hk as [Hk _]; exact Hk).
  assert (Hkz : Forall (fun e => kind G e = Some t) zs) by (apply Forall_app in Hk as [_ Hk]; apply Forall_app in Hk as [_ Hk]; exact Hk).
  assert (Hkn : kind G nested = Some t).
  { apply kind_concat; [exact Ht'|destruct xs; discriminate|]. apply Forall_app. split; [exact Hkx|]. constructor; [apply kind_concat; assumption|exact Hkz]. }
  assert (Hkf : kind G flat = Some t) by (apply kind_concat; [exact Ht'|destruct xs; [destruct ys; [congruence|discriminate]|discriminate]|exact Hk]).
  split; [congruence|]. split; [congruence|]. intros t' _ bs Hbs Hc Hn.
  assert (Hind : forallb (independent G) (xs ++ ys ++ zs) = true).
  { pose proof (independent_app _ _ _ _ HG Hi') as Hx. cbn [independent_items] in Hx. apply andb_prop in Hx as [Hx _]. unfold flat in Hx. cbn [independent] in Hx.
    assert (reads_source (txt "concat") raw'' = false) as E by (destruct raw''; reflexivity). rewrite E in Hx. cbn [orb] in Hx. apply andb_prop in Hx as [Hx _]. apply andb_prop in Hx as [Hx _]. exact Hx. }
  rewrite !forallb_app in Hind. apply andb_prop in Hind as [Hix Hind]. apply andb_prop in Hind as [Hiy Hiz].
  unfold nested, flat. cbn [denote]. assert (E : forall r, reads_source (txt "concat") r = false) by (intros []; reflexivity). rewrite !E.
  rewrite !mapM_app_res. cbn [mapM denote]. rewrite E.
  destruct (mapM (denote O seed bs) xs) as [vx| |] eqn:Ex; [|reflexivity|reflexivity]. cbn [bind].
  destruct (mapM (denote O seed bs) ys) as [vy| |] eqn:Ey; [|reflexivity|reflexivity]. cbn [bind].
  assert (Hm : forall r vs, call_meaning O seed (txt "concat") r vs = concat_meaning O vs) by reflexivity. rewrite !Hm.
  pose proof (typed_args G bs xs _ vx Hc Hn Hix (all_kinds G xs t Hkx) Ex) as Tx.
  pose proof (typed_args G bs ys _ vy Hc Hn Hiy (all_kinds G ys t Hky) Ey) as Ty.
  assert (Hvy : vy <> []) by (intros ->; destruct ys; [congruence|discriminate]).
  destruct (mapM (denote O seed bs) zs) as [vz| |] eqn:Ez.
  - pose proof (typed_args G bs zs _ vz Hc Hn Hiz (all_kinds G zs t Hkz) Ez) as Tz. cbn [bind].
    destruct Ht as [->|[-> Hin]].
    + destruct (strings_typed vx ltac:(rewrite Tx; apply typed_repeat)) as [lx Lx]. destruct (strings_typed vy ltac:(rewrite Ty; apply typed_repeat)) as [ly Ly].
      destruct (strings_typed vz ltac:(rewrite Tz; apply typed_repeat)) as [lz Lz].
      rewrite (strings_meaning vy ly Hvy Ly). cbn [bind]. rewrite ?Hm.
      rewrite (strings_meaning (vx ++ VLitStr (List.concat ly) [] :: vz) (lx ++ List.concat ly :: lz)); [|destruct vx; discriminate|].
      2:{ rewrite strings_app, Lx. cbn [strings_of fold_right]. fold (strings_of vz). rewrite Lz. reflexivity. }
      rewrite (strings_meaning (vx ++ vy ++ vz) (lx ++ ly ++ lz)); [|destruct vx; [destruct vy; [congruence|discriminate]|discriminate]|rewrite !strings_app, Lx, Ly, Lz; reflexivity].
      rewrite !concat_app. cbn [List.concat]. reflexivity.
    + destruct (idents_typed vx ltac:(rewrite Tx; apply typed_repeat)) as [lx Lx]. destruct (idents_typed vy ltac:(rewrite Ty; apply typed_repeat)) as [ly Ly].
      destruct (idents_typed vz ltac:(rewrite Tz; apply typed_repeat)) as [lz Lz].
      destruct (Hin bs vy Hbs Ey) as [w Hw]. rewrite (idents_meaning vy ly Hvy Ly) in Hw |- *. unfold identifier in Hw |- *. destruct (ident_ok O (List.concat ly)); [|discriminate]. cbn [bind]. rewrite ?Hm.
      rewrite (idents_meaning (vx ++ VIdent (List.concat ly) :: vz) (lx ++ List.concat ly :: lz)); [|destruct vx; discriminate|].
      2:{ rewrite idents_app, Lx. cbn [idents_of fold_right]. fold (idents_of vz). rewrite Lz. reflexivity. }
      rewrite (idents_meaning (vx ++ vy ++ vz) (lx ++ ly ++ lz)); [|destruct vx; [destruct vy; [congruence|discriminate]|discriminate]|rewrite !idents_app, Lx, Ly, Lz; reflexivity].
      rewrite !concat_app. cbn [List.concat]. reflexivity.
  - destruct Ht as [->|[-> Hin]].
    + destruct (strings_typed vy ltac:(rewrite Ty; apply typed_repeat)) as [ly Ly]. rewrite (strings_meaning vy ly Hvy Ly). reflexivity.
    + destruct (Hin bs vy Hbs Ey) as [w ->]. reflexivity.
  - destruct Ht as [->|[-> Hin]].
    + destruct (strings_typed vy ltac:(rewrite Ty; apply typed_repeat)) as [ly Ly]. rewrite (strings_meaning vy ly Hvy Ly). reflexivity.
    + destruct (Hin bs vy Hbs Ey) as [w ->]. reflexivity.
Qed.
End Flat.
