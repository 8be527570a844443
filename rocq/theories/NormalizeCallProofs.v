(** Proofs for C96: calls of [normalize] and of [normalize2]. *)
From Coq Require Import String Lia.
From Verif Require Import Base BaseFacts Token Types Values Ast Env Eval Resolve SpecElab SpecScope SpecPrograms SpecCalls SpecFunctions SpecShown SpecNormalizeCalls ElabProofs ElabFacts BuiltinFacts CallFacts MoreCallFacts ResolveFacts FunctionProofs.
Open Scope list_scope.

(** ** Exchanging a definition for another of the same type and value *)
Section Exchange.
Context (O : oracles) (env : environment) (a : str) (e e' : expr) (post : list spec_item).
Definition names_in {A} (names : list str) (G : list (str * A)) : Prop := forall x, assoc_str x G <> None -> In x names.
Definition same_here (names : list str) : Prop :=
  forall G, names_in names G -> exists te c te' c',
    elab env G e None = inl (te, c) /\ elab env G e' None = inl (te', c') /\ target_of te = target_of te' /\
    forall ctx, names_in names ctx -> run O (e_seed env) ctx te = run O (e_seed env) ctx te'.

Lemma names_cons {A} names x (v : A) G : names_in names G -> names_in (names ++ [x]) ((x, v) :: G).
Proof.
  intros H y. cbn [assoc_str]. destruct (str_eqb y x) eqn:E; intros K; apply in_or_app.
  - right. left. symmetry. apply str_eqb_eq, E.
  - left. apply H, K.
Qed.
Lemma elab_exchanged pre : forall names G, names_in names G -> same_here (names ++ map fst pre) ->
  match elab_items env G (pre ++ (a, e) :: post), elab_items env G (pre ++ (a, e') :: post) with
  | Ok tis, Ok tis' => exists tpre te te' tpost, tis = tpre ++ (a, te) :: tpost /\ tis' = tpre ++ (a, te') :: tpost /\ map fst tpre = map fst pre /\
      forall ctx, names_in (names ++ map fst pre) ctx -> run O (e_seed env) ctx te = run O (e_seed env) ctx te'
  | Err x, Err y => x = y
  | Panic x, Panic y => x = y
  | _, _ => False
  end.
Proof.
  induction pre as [|[x d] pre IH]; intros names G HG H; cbn [app elab_items map fst].
  - rewrite app_nil_r in H. destruct (H G HG) as (te & c & te' & c' & E1 & E2 & T & R). rewrite E1, E2. destruct (assoc_str a G); [exact eq_refl|]. rewrite <- T.
    match goal with |- context [elab_items env ?g post] => destruct (elab_items env g post) as [tpost| |] end; cbn [bind]; [|exact eq_refl..].
    exists [], te, te', tpost. repeat split. intros ctx Hc. apply R. rewrite app_nil_r in Hc. exact Hc.
  - destruct (elab env G d None) as [[td c]|er]; [|exact eq_refl]. destruct (assoc_str x G); [exact eq_refl|].
    specialize (IH (names ++ [x]) ((x, target_of td) :: G) (names_cons names x _ G HG)). rewrite <- app_assoc in IH. specialize (IH H).
    match goal with |- context [elab_items env ?g (pre ++ (a, e) :: post)] =>
      change (elab_items env g (pre ++ (a, e) :: post)) with (elab_items env ((x, target_of td) :: G) (pre ++ (a, e) :: post));
      change (elab_items env g (pre ++ (a, e') :: post)) with (elab_items env ((x, target_of td) :: G) (pre ++ (a, e') :: post)) end.
    destruct (elab_items env _ (pre ++ (a, e) :: post)) as [tis|y|y], (elab_items env _ (pre ++ (a, e') :: post)) as [tis'|y'|y']; try contradiction; cbn [bind]; try exact IH.
    destruct IH as (tpre & te & te' & tpost & -> & -> & F & R). exists ((x, td) :: tpre), te, te', tpost. cbn [app map fst]. rewrite F. split; [|split; [|split]]; [reflexivity..|].
    intros ctx Hc. apply R, Hc.
Qed.
Lemma run_exchanged te te' tpost tpre : forall names ctx, names_in names ctx ->
  (forall ctx, names_in (names ++ map fst tpre) ctx -> run O (e_seed env) ctx te = run O (e_seed env) ctx te') ->
  run_items O (e_seed env) ctx (tpre ++ (a, te) :: tpost) = run_items O (e_seed env) ctx (tpre ++ (a, te') :: tpost).
Proof.
  induction tpre as [|[x td] tpre IH]; intros names ctx Hc R; cbn [app run_items].
  - rewrite R; [reflexivity|]. cbn [map]. rewrite app_nil_r. exact Hc.
  - destruct (run O (e_seed env) ctx td) as [v| |]; cbn [bind]; [|reflexivity..].
    rewrite (IH (names ++ [x]) ((x, v) :: ctx)); [reflexivity|apply names_cons, Hc|]. rewrite <- app_assoc. exact R.
Qed.
Lemma exchanged pre c c' : NoDup (item_ids (pre ++ (a, e) :: post)) -> NoDup (item_ids (pre ++ (a, e') :: post)) -> same_here (map fst pre) ->
  make_substitutions O env {| spec_items := pre ++ (a, e) :: post; is_comma_used := c |} =
  make_substitutions O env {| spec_items := pre ++ (a, e') :: post; is_comma_used := c' |}.
Proof.
  intros D D' H. rewrite !make_substitutions_spec by assumption. cbn [spec_items]. unfold bindings.
  pose proof (elab_exchanged pre [] [] (fun x K => match K eq_refl with end) H) as E.
  destruct (elab_items env [] (pre ++ (a, e) :: post)) as [tis|y|y], (elab_items env [] (pre ++ (a, e') :: post)) as [tis'|y'|y']; try contradiction; cbn [bind]; try congruence.
  destruct E as (tpre & te & te' & tpost & -> & -> & F & R). apply (run_exchanged te te' tpost tpre []); [intros x K; destruct (K eq_refl)|]. rewrite F. exact R.
Qed.
End Exchange.

Section Calls.
Context (O : oracles) (seed n : N).
Notation env := (new_initialized O seed n).
Lemma normalize_elab G id args rid ts : exists te c, elab env G (ECall id (txt "normalize") args (Some (rid, ts))) None = inl (te, c) /\
  target_of te = TyIdent /\ forall ctx, run O seed ctx te = identifier O (fn_normalize O (to_string O ts)).
Proof.
  eexists _, _. split; [reflexivity|]. split; [reflexivity|]. intros ctx. cbn -[try_cast]. change (try_cast O (VRaw ts) TyRaw) with (@Ok value (VRaw ts)).
  cbn -[try_cast]. unfold impl_normalize, new_ident, identifier. cbn -[try_cast]. destruct (ident_ok O _); reflexivity.
Qed.
Lemma normalize2_raw_elab G id raw id' args rid ts : exists te c, elab env G (ECall id (txt "normalize2") [ECall id' (txt "raw") args (Some (rid, ts))] raw) None = inl (te, c) /\
  target_of te = TyIdent /\ forall ctx, run O seed ctx te = identifier O (fn_normalize O (to_string O ts)).
Proof.
  eexists _, _. split; [reflexivity|]. split; [reflexivity|]. intros ctx. cbn -[try_cast].  change (try_cast O (VRaw ts) TyRaw) with (@Ok value (VRaw ts)). cbn -[try_cast].
  change (try_cast O (VTokens ts) TyTokens) with (@Ok value (VTokens ts)). cbn -[try_cast].
  unfold impl_normalize2_tokens, new_ident, identifier. cbn -[try_cast]. destruct (ident_ok O _); reflexivity.
Qed.

Lemma normalize2_value_elab G id raw lid v : (forall digits written, v <> VLitInt digits written) -> (forall text written, v <> VLitStr text written) -> (forall ts, v <> VRaw ts) ->
  prints_leaves O -> (forall x, v = VIdent x -> assoc_str x G = None) ->
  exists te c, elab env G (ECall id (txt "normalize2") [EValue lid v] raw) None = inl (te, c) /\
  target_of te = TyIdent /\ forall ctx, (forall x, v = VIdent x -> assoc_str x ctx = None) -> run O seed ctx te = identifier O (fn_normalize O (to_string O (to_tokens v))).
Proof.
  intros Hi Hs Hr [P _] HG. destruct v as [x|ts|ts|ts|x p|d w|ts|ts]; try (exfalso; first [exact (Hi _ _ eq_refl)|exact (Hs _ _ eq_refl)|exact (Hr _ eq_refl)]).
  all: try (eexists _, _; split; [reflexivity|]; split; [reflexivity|]; intros ctx _; cbn -[try_cast];
    match goal with |- context [try_cast O ?v ?t] => change (try_cast O v t) with (@Ok value v) end; cbn -[try_cast];
    unfold impl_normalize2_path, impl_normalize2_type, impl_normalize2_expr, impl_normalize2_tokens, new_ident, identifier; cbn -[try_cast]; destruct (ident_ok O _); reflexivity).
  specialize (HG x eq_refl).
  eexists _, _. split; [cbn -[str_eqb]; rewrite HG; cbn; reflexivity|]. split; [reflexivity|]. intros ctx Hc. specialize (Hc x eq_refl).
  cbn -[try_cast]. rewrite Hc. change (try_cast O (VIdent x) TyIdent) with (@Ok value (VIdent x)). cbn -[try_cast]. rewrite P.
  unfold impl_normalize2_ident, new_ident, identifier. cbn -[try_cast]. destruct (ident_ok O _); reflexivity.
Qed.

Lemma normalize2_literal_elab G id raw lid v text : says v text ->
  exists te c, elab env G (ECall id (txt "normalize2") [EValue lid v] raw) None = inl (te, c) /\
  target_of te = TyIdent /\ forall ctx, run O seed ctx te = identifier O (fn_normalize O text).
Proof.
  intros []; (eexists _, _; split; [reflexivity|]; split; [reflexivity|]; intros ctx; cbn -[try_cast];
    match goal with |- context [try_cast O ?v ?t] => change (try_cast O v t) with (@Ok value v) end; cbn -[try_cast];
    unfold impl_normalize2_str, impl_normalize2_int, new_ident, identifier; cbn -[try_cast]; destruct (ident_ok O _); reflexivity).
Qed.

(** ** The theorems *)
Lemma normalize_of_raw pre a post id1 raw1 id2 args2 rid2 id args rid ts c c' :
  let evaluated := (a, ECall id1 (txt "normalize2") [ECall id2 (txt "raw") args2 (Some (rid2, ts))] raw1) in
  let unevaluated := (a, ECall id (txt "normalize") args (Some (rid, ts))) in
  NoDup (item_ids (pre ++ evaluated :: post)) -> NoDup (item_ids (pre ++ unevaluated :: post)) ->
  make_substitutions O env {| spec_items := pre ++ evaluated :: post; is_comma_used := c |} =
  make_substitutions O env {| spec_items := pre ++ unevaluated :: post; is_comma_used := c' |}.
Proof.
  intros e u He Hu. apply exchanged; [exact He|exact Hu|]. intros G _.
  destruct (normalize2_raw_elab G id1 raw1 id2 args2 rid2 ts) as (te & k & E & T & R).
  destruct (normalize_elab G id args rid ts) as (te' & k' & E' & T' & R').
  exists te, k, te', k'. split; [exact E|]. split; [exact E'|]. split; [congruence|]. intros ctx _. change (e_seed env) with seed. rewrite R, R'. reflexivity.
Qed.
Lemma normalize_of_value pre a post id1 raw1 lid v id args rid c c' : prints_leaves O -> taken_as_written v -> (forall x, v = VIdent x -> ~ In x (map fst pre)) ->
  let evaluated := (a, ECall id1 (txt "normalize2") [EValue lid v] raw1) in
  let unevaluated := (a, ECall id (txt "normalize") args (Some (rid, to_tokens v))) in
  NoDup (item_ids (pre ++ evaluated :: post)) -> NoDup (item_ids (pre ++ unevaluated :: post)) ->
  make_substitutions O env {| spec_items := pre ++ evaluated :: post; is_comma_used := c |} =
  make_substitutions O env {| spec_items := pre ++ unevaluated :: post; is_comma_used := c' |}.
Proof.
  intros P (Hi & Hs & Hr) Hx e u He Hu. apply exchanged; [exact He|exact Hu|]. intros G HG.
  assert (F : forall {A} (l : list (str * A)), names_in (map fst pre) l -> forall x, v = VIdent x -> assoc_str x l = None).
  { intros A l Hl x E. destruct (assoc_str x l) eqn:K; [|reflexivity]. exfalso. apply (Hx x E), (Hl x). congruence. }
  destruct (normalize2_value_elab G id1 raw1 lid v Hi Hs Hr P (F _ G HG)) as (te & k & E & T & R).
  destruct (normalize_elab G id args rid (to_tokens v)) as (te' & k' & E' & T' & R').
  exists te, k, te', k'. split; [exact E|]. split; [exact E'|]. split; [congruence|]. intros ctx Hc. change (e_seed env) with seed. rewrite R, R' by (apply F, Hc). reflexivity.
Qed.
Lemma normalize_of_literal pre a post id1 raw1 lid v text id args rid ts c c' : says v text -> fn_normalize O text = fn_normalize O (to_string O ts) ->
  let evaluated := (a, ECall id1 (txt "normalize2") [EValue lid v] raw1) in
  let unevaluated := (a, ECall id (txt "normalize") args (Some (rid, ts))) in
  NoDup (item_ids (pre ++ evaluated :: post)) -> NoDup (item_ids (pre ++ unevaluated :: post)) ->
  make_substitutions O env {| spec_items := pre ++ evaluated :: post; is_comma_used := c |} =
  make_substitutions O env {| spec_items := pre ++ unevaluated :: post; is_comma_used := c' |}.
Proof.
  intros Hs Ht e u He Hu. apply exchanged; [exact He|exact Hu|]. intros G _.
  destruct (normalize2_literal_elab G id1 raw1 lid v text Hs) as (te & k & E & T & R).
  destruct (normalize_elab G id args rid ts) as (te' & k' & E' & T' & R').
  exists te, k, te', k'. split; [exact E|]. split; [exact E'|]. split; [congruence|]. intros ctx _. change (e_seed env) with seed. rewrite R, R', Ht. reflexivity.
Qed.
Lemma normalize_call pre a id args rid ts bs c c' :
  NoDup (item_ids (pre ++ [(a, ECall id (txt "normalize") args (Some (rid, ts)))])) -> ~ In a (map fst pre) ->
  make_substitutions O env {| spec_items := pre; is_comma_used := c |} = Ok bs ->
  make_substitutions O env {| spec_items := pre ++ [(a, ECall id (txt "normalize") args (Some (rid, ts)))]; is_comma_used := c' |} =
  let! v := identifier O (fn_normalize O (to_string O ts)) in Ok (bs ++ [(a, v)]).
Proof.
  intros Hnd Ha H. apply (bindings_last O seed n pre a _ bs _ Hnd Ha) with (c := c); [|exact H]. intros G _ _.
  destruct (normalize_elab G id args rid ts) as (te & k & -> & _ & R). apply R.
Qed.
Lemma normalize_of_alias pre a b v id1 raw1 lid id args rid bs c c' c2 : prints_leaves O -> taken_as_written v -> ~ In a (map fst pre) ->
  make_substitutions O env {| spec_items := pre; is_comma_used := c |} = Ok bs -> assoc_str b bs = Some v ->
  let evaluated := (a, ECall id1 (txt "normalize2") [EValue lid (VIdent b)] raw1) in
  let unevaluated := (a, ECall id (txt "normalize") args (Some (rid, to_tokens v))) in
  NoDup (item_ids (pre ++ [evaluated])) -> NoDup (item_ids (pre ++ [unevaluated])) ->
  make_substitutions O env {| spec_items := pre ++ [evaluated]; is_comma_used := c' |} =
  make_substitutions O env {| spec_items := pre ++ [unevaluated]; is_comma_used := c2 |}.
Proof.
  intros [P _] (Hi & Hs & Hr) Ha H Hb e u He Hu. unfold e, u in *. rewrite (normalize_call pre a id args rid (to_tokens v) bs c c2 Hu Ha H).
  change [EValue lid (VIdent b)] with (plain [(lid, VIdent b)]) in *.
  rewrite (function_call O seed n pre a id1 (txt "normalize2") [(lid, VIdent b)] raw1 bs c c' He Ha H).
  replace (call_meaning O seed (txt "normalize2") (option_map snd raw1) (map (fun l => lookup_value bs (snd l)) [(lid, VIdent b)]))
    with (identifier O (fn_normalize O (spelling O (lookup_value bs (VIdent b))))) by reflexivity.
  unfold lookup_value. rewrite Hb. destruct v as [x|ts|ts|ts|x p|d w|ts|ts]; try (exfalso; first [exact (Hi _ _ eq_refl)|exact (Hs _ _ eq_refl)|exact (Hr _ eq_refl)]); try reflexivity.
  cbn [spelling to_tokens]. rewrite P. reflexivity.
Qed.
End Calls.
