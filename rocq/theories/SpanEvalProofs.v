(** Values, functions and evaluation with spans. *)
From Coq Require Import String.
From Verif Require Import Base BaseFacts Token Types TypesProofs Values Ast Env Resolve Eval SpecElab SpecScope ElabProofs ElabFacts BuiltinFacts BuiltinCasts
  FormatString Failures Messages MessageProofs SpanTokens SpanWalker SpecSpans SpanProofs SpanValues SpanEval SpecSpanEval.
Open Scope list_scope.

Lemma erase_to_tokens v : map erase (sto_tokens v) = to_tokens (erase_value v).
Proof. destruct v; reflexivity. Qed.
Lemma erase_type v : stype_of v = type_of (erase_value v).
Proof. destruct v; reflexivity. Qed.

(** ** Casts *)
Lemma or_error_erase {A B} (x : option A) (h : A -> B) (g : A -> svalue) (f : B -> value) er at_ :
  class er = TypeError -> (forall a, erase_value (g a) = f (h a)) ->
  forget erase_value (or_error_at er at_ x g) = or_type_error (option_map h x) f.
Proof. intros E H. destruct x; cbn; [rewrite H|rewrite E]; reflexivity. Qed.

Lemma cast_erase O SO v t : spanless O SO ->
  forget erase_value (stry_cast O SO v t) = try_cast O (erase_value v) t.
Proof.
  intros L. unfold stry_cast, try_cast. rewrite erase_type. destruct (ty_eqb (type_of (erase_value v)) t) eqn:Et; [reflexivity|].
  assert (Hls : forall er at_ ts, class er = TypeError -> forget erase_value
     (match sparse_lit_str SO ts with
      | Some (x, _, _) => sfrom_lit_str_as_ident O SO x
      | None => or_error_at er at_ (sparse_ident SO ts) (fun i => SVIdent (fst i) (snd i)) end) =
     match parse_lit_str O (map erase ts) with
      | Some (x, _) => from_lit_str_as_ident O x
      | None => or_type_error (parse_ident O (map erase ts)) VIdent end).
  { intros er at_ ts Ecl. rewrite <- (spanless_lit_str _ _ L), <- (spanless_ident _ _ L).
    destruct (sparse_lit_str SO ts) as [[[x p] s]|]; cbn [option_map fst].
    - unfold sfrom_lit_str_as_ident, from_lit_str_as_ident. destruct (parse_str_ident O x); reflexivity.
    - apply or_error_erase; [exact Ecl|reflexivity]. }
  assert (Hst : forall er at_ ts, class er = TypeError -> forget erase_value
     (match sparse_ident SO ts with
      | Some (x, s) => SOk (SVLitStr x [] s)
      | None => or_error_at er at_ (sparse_lit_str SO ts) (fun '(x, p, s) => SVLitStr x p s) end) =
     match parse_ident O (map erase ts) with
      | Some x => Ok (VLitStr x [])
      | None => or_type_error (parse_lit_str O (map erase ts)) (fun l => VLitStr (fst l) (snd l)) end).
  { intros er at_ ts Ecl. rewrite <- (spanless_lit_str _ _ L), <- (spanless_ident _ _ L).
    destruct (sparse_ident SO ts) as [[x s]|]; cbn [option_map fst]; [reflexivity|].
    apply or_error_erase; [exact Ecl|intros [[x p] s]; reflexivity]. }
  assert (Hin : forall er at_ ts, class er = TypeError -> forget erase_value (or_error_at er at_ (sparse_lit_int SO ts) (fun '(x, p, s) => SVLitInt x p s)) =
      or_type_error (parse_lit_int O (map erase ts)) (fun l => VLitInt (fst l) (snd l))).
  { intros er at_ ts Ecl. rewrite <- (spanless_lit_int _ _ L). apply or_error_erase; [exact Ecl|intros [[x p] s]; reflexivity]. }
  assert (Hp : forall er at_ ts, class er = TypeError -> forget erase_value (or_error_at er at_ (sparse_path SO ts) SVPath) = or_type_error (parse_path O (map erase ts)) VPath)
    by (intros; rewrite <- (spanless_path _ _ L); apply or_error_erase; [assumption|reflexivity]).
  assert (Hty : forall er at_ ts, class er = TypeError -> forget erase_value (or_error_at er at_ (sparse_type SO ts) SVType) = or_type_error (parse_type O (map erase ts)) VType)
    by (intros; rewrite <- (spanless_type _ _ L); apply or_error_erase; [assumption|reflexivity]).
  assert (He : forall er at_ ts, class er = TypeError -> forget erase_value (or_error_at er at_ (sparse_expr SO ts) SVExpr) = or_type_error (Values.parse_expr O (map erase ts)) VExpr)
    by (intros; rewrite <- (spanless_expr _ _ L); apply or_error_erase; [assumption|reflexivity]).
  destruct v, t; cbn [erase_value] in *; try discriminate Et; try (rewrite <- erase_to_tokens; cbn [sto_tokens]);
    try reflexivity; try (apply Hls; reflexivity); try (apply Hst; reflexivity); try (apply Hin; reflexivity); try (apply Hp; reflexivity); try (apply Hty; reflexivity); try (apply He; reflexivity).
  cbn. unfold sfrom_lit_str_as_ident, from_lit_str_as_ident. destruct (parse_str_ident O v); reflexivity.
Qed.

Lemma cast_rule O SO v t r : stry_cast O SO v t = SOk r -> value_spans r = cast_spans SO v t.
Proof.
  unfold stry_cast, cast_spans. destruct (ty_eqb (stype_of v) t) eqn:Et; [congruence|].
  assert (G : forall A (x : option A) g er at_, or_error_at er at_ x g = SOk r -> exists a, x = Some a /\ r = g a)
    by (intros A [a|] g er at_; cbn; [intros H; injection H as <-; eauto|discriminate]).
  destruct v, t; try discriminate Et; cbn [sto_tokens reading_spans]; try discriminate;
    try (intros H; injection H as <-; cbn; rewrite ?app_nil_r; reflexivity);
    try (intros H; apply G in H as (a & -> & ->); cbn; rewrite ?app_nil_r; reflexivity);
    try (destruct (sparse_lit_str SO _) as [[[x' p'] s']|];
         [unfold sfrom_lit_str_as_ident; intros H; apply G in H as (a & _ & ->); reflexivity
         |intros H; apply G in H as ([x'' s''] & -> & ->); reflexivity]);
    try (destruct (sparse_ident SO _) as [[x' s']|];
         [intros H; injection H as <-; reflexivity
         |intros H; apply G in H as ([[x'' p''] s''] & -> & ->); reflexivity]);
    try (intros H; apply G in H as ([[x'' p''] s''] & -> & ->); reflexivity).
  unfold sfrom_lit_str_as_ident. intros H; apply G in H as (a & _ & ->). reflexivity.
Qed.

(** ** Functions *)
Lemma collect_erase {A} (g : svalue -> option A) (h : value -> option A) vs : (forall v, g v = h (erase_value v)) ->
  scollect g vs = collect_args h (map erase_value vs).
Proof. intros H. induction vs as [|v vs IH]; [reflexivity|]. cbn. rewrite H, IH. reflexivity. Qed.
Lemma collect_erase_map {A B} (e : A -> B) (g : svalue -> option A) (h : value -> option B) vs : (forall v, option_map e (g v) = h (erase_value v)) ->
  option_map (map e) (scollect g vs) = collect_args h (map erase_value vs).
Proof.
  intros H. induction vs as [|v vs IH]; [reflexivity|]. cbn. rewrite <- H, <- IH.
  destruct (g v); [|reflexivity]. cbn. destruct (scollect g vs); reflexivity.
Qed.
Lemma new_ident_erase O x s : forget erase_value (snew_ident O x s) = new_ident O x.
Proof. unfold snew_ident, new_ident. destruct (ident_ok O x); reflexivity. Qed.

Ltac impl_cases := intros; match goal with
  | |- context [map erase_value ?vs] => destruct vs as [|[] [|]]; cbn [map erase_value]; try reflexivity; try apply new_ident_erase
  end.

(** A [Func] of the table. *)
Definition builtin (O : oracles) (f : func) : Prop :=
  exists vs, assoc_str (f_name f) (table O) = Some vs /\ In (f_arg_types f, f_out_type f, f_impl f) vs.

Lemma number_rows_find rows : forall n name fs, assoc_str name (number_rows n rows) = Some fs ->
  exists k vs, assoc_str name rows = Some vs /\ fs = number_variants name k vs.
Proof.
  induction rows as [|[m vs] rows IH]; intros n name fs H; cbn in H |- *; [discriminate|].
  destruct (str_eqb name m) eqn:E; [|eapply IH; exact H].
  apply str_eqb_eq in E as ->. injection H as <-. eauto.
Qed.
Lemma builtin_variants O seed n name fs f :
  get_func_variants (new_initialized O seed n) name = Some fs -> In f fs -> builtin O f /\ f_name f = name.
Proof.
  intros H Hf. unfold get_func_variants, new_initialized in H. cbn [e_funcs] in H.
  apply number_rows_find in H as (k & vs & H1 & ->). apply BuiltinFacts.number_variants_in in Hf as [H2 H3].
  split; [exists vs; rewrite H3; auto|exact H3].
Qed.

Lemma concat_erase (l : list (list stt)) : map erase (List.concat l) = List.concat (map (map erase) l).
Proof. apply concat_map. Qed.

Section Impl.
Context (O : oracles) (SO : soracles).
Hypothesis L : spanless O SO.

Definition erases (s : simpl_t) (g : N -> list value -> res value) : Prop :=
  forall seed at_ vs, forget erase_value (s seed at_ vs) = g seed (map erase_value vs).

Lemma table_erases : Forall2 (fun (r : row) (s : srow) => fst r = fst s /\
    Forall2 (fun a b => fst (fst a) = fst b /\ erases (snd b) (snd a)) (snd r) (snd s)) (table O) (stable O SO).
Proof.
  assert (Hto : forall t, erases (simpl_to O SO t) (impl_to O t))
    by (intros t seed at_ vs; destruct vs as [|[] [|]]; cbn [map erase_value]; try reflexivity;
        unfold simpl_to, impl_to; rewrite cast_erase by exact L; reflexivity).
  unfold table, stable, str_funcs, sstr_funcs.
  repeat (constructor; [split; [reflexivity|cbn [snd];
    repeat (constructor; [split; [reflexivity|try (apply Hto); try (intros seed at_ vs; destruct vs as [|[] [|]]; cbn [map erase_value]; try reflexivity; apply new_ident_erase)]|]); try constructor]|]); try constructor.
  - intros seed at_ vs. unfold snd, simpl_concat_idents, impl_concat_idents.
    rewrite (collect_erase _ (fun v => match v with VIdent x => Some x | _ => None end)) by (intros []; reflexivity).
    destruct (collect_args _ _); [apply new_ident_erase|reflexivity].
  - intros seed at_ vs. unfold snd, simpl_concat_ident_tokens, impl_concat_ident_tokens. destruct vs as [|first vs]; [reflexivity|]. cbn [map].
    rewrite (collect_erase _ (fun v => match v with VTokens ts => Some (to_string O ts) | _ => None end)) by (intros []; reflexivity).
    destruct (collect_args _ _); [|reflexivity]. rewrite erase_to_tokens. destruct (parse_str_ident O _); reflexivity.
  - intros seed at_ vs. unfold snd, simpl_concat_strs, impl_concat_strs.
    rewrite (collect_erase _ (fun v => match v with VLitStr x _ => Some x | _ => None end)) by (intros []; reflexivity).
    destruct (collect_args _ _); reflexivity.
  - intros seed at_ vs. unfold snd, simpl_concat_ints, impl_concat_ints.
    rewrite (collect_erase _ (fun v => match v with VLitInt x _ => Some x | _ => None end)) by (intros []; reflexivity).
    destruct (collect_args _ _); [|reflexivity]. destruct (lit_int_new O _) as [[]|]; reflexivity.
  - intros seed at_ vs. unfold snd, simpl_concat_tokens, impl_concat_tokens.
    rewrite <- (collect_erase_map (map erase) (fun v => match v with SVTokens ts => Some ts | _ => None end)) by (intros []; reflexivity).
    destruct (scollect _ _); [|reflexivity]. cbn. rewrite concat_erase. reflexivity.
Qed.
End Impl.

(** ** The overload of a [Func] *)
Lemma tys_eqb_eq a : forall b, tys_eqb a b = true <-> a = b.
Proof.
  induction a as [|x a IH]; intros [|y b]; cbn; split; try discriminate; try reflexivity.
  - rewrite andb_true_iff. intros [H1 H2]. apply ty_eqb_eq in H1. apply IH in H2. congruence.
  - intros H. injection H as -> ->. rewrite (proj2 (ty_eqb_eq y y) eq_refl), (proj2 (IH b) eq_refl). reflexivity.
Qed.
Lemma table_overloads O : Forall (fun r : row => NoDup (map (fun v => fst (fst v)) (snd r))) (table O).
Proof.
  unfold table, str_funcs. repeat (constructor; [cbn [snd map fst]; repeat (constructor; [cbn [In]; intuition discriminate|]); constructor|]). constructor.
Qed.
Lemma find_related (R : (N -> list value -> res value) -> simpl_t -> Prop) vs ss :
  Forall2 (fun (a : list ty * ty * (N -> list value -> res value)) (b : list ty * simpl_t) => fst (fst a) = fst b /\ R (snd a) (snd b)) vs ss ->
  NoDup (map (fun v => fst (fst v)) vs) ->
  forall args out impl, In (args, out, impl) vs -> exists s, find_overload args ss = Some s /\ In (args, s) ss /\ R impl s.
Proof.
  induction 1 as [|[[a o] i] [b s] vs ss [H1 H2] H IH]; intros Hnd args out impl; [intros []|].
  cbn [fst snd] in H1, H2. subst b. inversion Hnd as [|? ? Hn Hnd']; subst. cbn [find_overload fst snd] in *. intros [E|Hin].
  - injection E as -> -> ->. rewrite (proj2 (tys_eqb_eq args args) eq_refl). exists s. cbn. auto.
  - destruct (tys_eqb args a) eqn:E.
    + exfalso. apply tys_eqb_eq in E as ->. apply Hn. apply in_map_iff. exists (a, out, impl). auto.
    + destruct (IH Hnd' _ _ _ Hin) as (s' & H3 & H4 & H5). exists s'. cbn. auto.
Qed.
Lemma builtin_overload O SO f : spanless O SO -> builtin O f ->
  exists l s, assoc_str (f_name f) (stable O SO) = Some l /\ find_overload (f_arg_types f) l = Some s /\ In (f_arg_types f, s) l /\
    erases s (f_impl f).
Proof.
  intros L (vs & H1 & H2). pose proof (table_erases O SO L) as HF. pose proof (table_overloads O) as HN.
  induction HF as [|[n vs'] [n' ss] rows srows [E HF'] HF IH]; [discriminate|]. cbn [fst snd] in *. subst n'.
  cbn [assoc_str] in H1 |- *. inversion HN as [|? ? HN1 HN2]; subst. destruct (str_eqb (f_name f) n).
  - injection H1 as ->. destruct (find_related (fun i s => erases s i) vs ss HF' HN1 _ _ _ H2) as (s & H3 & H4 & H5). eauto 8.
  - apply IH; assumption.
Qed.
Lemma simpl_of_erase O SO f seed at_ vs : spanless O SO -> builtin O f ->
  forget erase_value (simpl_of O SO f seed at_ vs) = f_impl f seed (map erase_value vs).
Proof.
  intros L B. destruct (builtin_overload O SO f L B) as (l & s & H1 & H2 & _ & H3). unfold simpl_of. rewrite H1, H2. apply H3.
Qed.

(** ** The span table *)
Definition follows (SO : soracles) (src : source) (s : simpl_t) : Prop :=
  forall seed at_ vs r, s seed at_ vs = SOk r -> value_spans r = source_spans SO src at_ vs.

Lemma snew_ident_spans O x s r : snew_ident O x s = SOk r -> value_spans r = [s].
Proof. unfold snew_ident. destruct (ident_ok O x); [|discriminate]. intros H; injection H as <-. reflexivity. Qed.
Lemma scollect_tokens vs l : scollect (fun v => match v with SVTokens ts => Some ts | _ => None end) vs = Some l ->
  List.concat l = flat_map sto_tokens vs.
Proof.
  revert l. induction vs as [|v vs IH]; intros l H; cbn in H; [injection H as <-; reflexivity|].
  destruct v; try discriminate. destruct (scollect _ vs); [|discriminate]. injection H as <-. cbn. rewrite (IH l0 eq_refl). reflexivity.
Qed.
Lemma spans_flat_map vs : spans (flat_map sto_tokens vs) = flat_map value_spans vs.
Proof. induction vs as [|v vs IH]; [reflexivity|]. unfold spans in *. cbn. rewrite flat_map_app, IH. reflexivity. Qed.

Ltac span_row k := eexists; split; [do k right; left; reflexivity|].

Lemma reading_rule O SO t : ty_eqb TyTokens t = false -> match t with TyRaw | TyVariadic _ => False | _ => True end ->
  follows SO (FromReading t) (simpl_to O SO t).
Proof.
  intros Ht Hr seed at_ vs r. unfold simpl_to. destruct vs as [|[] [|]]; try discriminate. intros H. apply cast_rule in H. rewrite H.
  unfold cast_spans. cbn [stype_of]. rewrite Ht. cbn [source_spans flat_map sto_tokens]. rewrite app_nil_r. destruct t; try contradiction; reflexivity.
Qed.

Lemma stable_sources O SO : Forall (fun r : srow => Forall (fun o : list ty * simpl_t =>
    exists src, In (fst r, fst o, src) span_table /\ follows SO src (snd o)) (snd r)) (stable O SO).
Proof.
  assert (H1 : forall g, follows SO FromArguments (sstr_func_lit g))
    by (intros g seed at_ vs r; destruct vs as [|[] [|]]; try discriminate; intros H; injection H as <-; reflexivity).
  assert (H2 : forall g, follows SO FromArguments (sstr_func_ident O g))
    by (intros g seed at_ vs r; destruct vs as [|[] [|]]; try discriminate; apply snew_ident_spans).
  unfold stable, sstr_funcs.
  repeat (constructor; [cbn [snd fst]; repeat (constructor; [cbn [snd fst]|]); try constructor|]); try constructor.
  all: try (match goal with |- exists src, In (?n, ?ts, _) span_table /\ _ =>
      let row := eval vm_compute in (find (fun r => str_eqb (fst (fst r)) n && tys_eqb (snd (fst r)) ts) span_table) in
      match row with Some (_, _, ?src) => exists src end end).
  all: split; [try (unfold span_table; cbn [app map In]; tauto)|].
  all: try apply H1; try apply H2; try (apply reading_rule; [reflexivity|exact I]).
  all: intros seed at_ vs r; try (destruct vs as [|[] [|]]; try discriminate; apply snew_ident_spans).
  all: try (destruct vs as [|[] [|]]; try discriminate; intros H; injection H as <-; cbn; rewrite ?app_nil_r; reflexivity).
  - unfold simpl_concat_idents. destruct (scollect _ vs); [apply snew_ident_spans|discriminate].
  - unfold simpl_concat_ident_tokens. destruct vs as [|v vs]; [discriminate|]. destruct (scollect _ vs); [|discriminate].
    destruct (parse_str_ident O _); [|discriminate]. intros H; injection H as <-. reflexivity.
  - unfold simpl_concat_strs. destruct (scollect _ vs); [|discriminate]. intros H; injection H as <-. reflexivity.
  - unfold simpl_concat_ints. destruct (scollect _ vs); [|discriminate]. destruct (lit_int_new O _) as [[]|]; [|discriminate]. intros H; injection H as <-. reflexivity.
  - unfold simpl_concat_tokens. destruct (scollect _ vs) as [l|] eqn:E; [|discriminate]. intros H; injection H as <-.
    unfold value_spans. cbn. rewrite (scollect_tokens _ _ E). apply spans_flat_map.
Qed.

Lemma span_table_functional : NoDup (map fst span_table).
Proof.
  assert (Hd : forall a b : str * list ty, {a = b} + {a <> b}).
  { intros [n ts] [n' ts']. destruct (str_eqb n n') eqn:E1; [apply str_eqb_eq in E1 as ->|right; intros H; injection H as -> _; rewrite str_eqb_refl in E1; discriminate].
    destruct (tys_eqb ts ts') eqn:E2; [apply tys_eqb_eq in E2 as ->; left; reflexivity|right; intros H; injection H as ->].
    rewrite (proj2 (tys_eqb_eq ts' ts') eq_refl) in E2. discriminate. }
  assert (E : forall l : list (str * list ty), (fix go l := match l with [] => true | x :: r => negb (existsb (fun y => str_eqb (fst x) (fst y) && tys_eqb (snd x) (snd y)) r) && go r end) l = true -> NoDup l).
  { induction l as [|x l IH]; [constructor|]. rewrite andb_true_iff. intros [H1 H2]. constructor; [|apply IH; exact H2].
    intros Hin. apply negb_true_iff in H1. rewrite <- not_true_iff_false in H1. apply H1. apply existsb_exists. exists x. split; [exact Hin|].
    rewrite str_eqb_refl. apply (tys_eqb_eq (snd x) (snd x)). reflexivity. }
  apply E. vm_compute. reflexivity.
Qed.
Lemma builtin_sources O SO f : spanless O SO -> builtin O f ->
  exists src, In (f_name f, f_arg_types f, src) span_table /\
    forall seed at_ vs r, simpl_of O SO f seed at_ vs = SOk r -> value_spans r = source_spans SO src at_ vs.
Proof.
  intros L B. destruct (builtin_overload O SO f L B) as (l & s & H1 & H2 & H3 & _).
  assert (H1' : In (f_name f, l) (stable O SO)).
  { clear - H1. induction (stable O SO) as [|[n l'] r IH]; [discriminate|]. cbn in H1. destruct (str_eqb (f_name f) n) eqn:E; [|right; auto].
    apply str_eqb_eq in E as ->. injection H1 as ->. left; reflexivity. }
  pose proof (stable_sources O SO) as HF. rewrite Forall_forall in HF. specialize (HF _ H1'). cbn [fst snd] in HF.
  rewrite Forall_forall in HF. destruct (HF _ H3) as (src & Hin & Hf). exists src. split; [exact Hin|].
  intros seed at_ vs r. unfold simpl_of. rewrite H1, H2. apply Hf.
Qed.
Lemma in_functional {A B} (l : list (A * B)) a b b' : NoDup (map fst l) -> In (a, b) l -> In (a, b') l -> b = b'.
Proof.
  induction l as [|[x y] l IH]; intros Hnd; [intros []|]. inversion Hnd as [|? ? Hn Hnd']; subst. cbn [map fst] in *.
  intros [E|H] [E'|H'].
  - congruence.
  - injection E as -> ->. exfalso. apply Hn. change a with (fst (a, b')). apply in_map. exact H'.
  - injection E' as -> ->. exfalso. apply Hn. change a with (fst (a, b)). apply in_map. exact H.
  - apply IH; assumption.
Qed.
Lemma builtin_source O SO f src : spanless O SO -> builtin O f -> In (f_name f, f_arg_types f, src) span_table ->
  forall seed at_ vs r, simpl_of O SO f seed at_ vs = SOk r -> value_spans r = source_spans SO src at_ vs.
Proof.
  intros L B Hin. destruct (builtin_sources O SO f L B) as (src' & Hin' & H).
  rewrite (in_functional _ _ _ _ span_table_functional Hin Hin'). exact H.
Qed.

(** ** Resolution *)
Lemma erase_spec_ids items : item_ids (erase_spec items) = flat_map (fun i => ids (erase_expr (snd i))) items.
Proof. unfold item_ids, erase_spec. rewrite flat_map_concat_map, map_map, <- flat_map_concat_map. reflexivity. Qed.

Section Resolve.
Context (O : oracles) (SO : soracles) (env : environment).

Lemma value_elab G id v : elab env G (EValue id v) None <> inr TypeError /\ forall er, elab env G (EValue id v) None = inr er -> False.
Proof.
  assert (H : forall t, coercion_cost t t <> None).
  { intros t. rewrite cost_same. discriminate. }
  cbn [elab]. specialize (H (static_type G v)). destruct (coercion_cost _ _); [|congruence]. split; [discriminate|]. intros er; discriminate.
Qed.

Lemma sresolve_items_ok items : forall G sc,
  alias_ok G sc -> NoDup (item_ids (erase_spec items)) -> apart (item_ids (erase_spec items)) sc -> fresh (item_ids (erase_spec items)) sc ->
  match selab_items O SO env G items with
  | SOk tis =>
      exists sc', sresolve_items O SO env sc items = SOk sc' /\
        (forall id, ~ In id (item_ids (erase_spec items)) -> same_at sc sc' id) /\
        Forall2 (fun it ti => fst it = fst ti /\ encodes sc' (snd ti) (erase_expr (snd it))) items tis
  | SErr er s => sresolve_items O SO env sc items = SErr er s
  | SPanic _ => False
  end.
Proof.
  induction items as [|[name e] items IH]; intros G sc Hal Hnd Hap Hfr; cbn [selab_items sresolve_items].
  - exists sc. repeat split. constructor.
  - unfold item_ids, erase_spec in Hnd, Hap, Hfr. cbn [map fst flat_map snd] in Hnd, Hap, Hfr.
    fold (erase_spec items) in Hnd, Hap, Hfr. fold (item_ids (erase_spec items)) in Hnd, Hap, Hfr.
    apply NoDup_app_disj in Hnd as (Hnd1 & Hnd2 & Hdisj).
    unfold sresolve_item, sresolve_expr. cbn [fst snd].
    pose proof (resolve_expr_ok env G (erase_expr e) sc None Hal Hnd1 (apart_incl _ _ _ (incl_appl _ (incl_refl _)) Hap)
                  (fresh_incl _ _ _ (incl_appl _ (incl_refl _)) Hfr)) as H.
    destruct (elab env G (erase_expr e) None) as [[te c]|er] eqn:Ee.
    + destruct H as (sc1 & -> & Hf & Henc & _ & Hty). cbn [sbind].
      assert (Hal1 : alias_ok G sc1) by (eapply alias_ok_frame; [exact Hal|exact Hf|]; eapply apart_incl; [|exact Hap]; apply incl_appl; apply incl_refl).
      pose proof (assoc_alias_ok G sc1 name Hal1) as Has. unfold try_add_name.
      destruct (assoc_str name G); destruct (assoc_str name (sc_aliases sc1)); try contradiction; [reflexivity|].
      cbn [sbind].
      match goal with |- context [sresolve_items O SO env ?s items] => set (sc2 := s) end.
      assert (Hal2 : alias_ok ((name, target_of te) :: G) sc2).
      { unfold alias_ok, sc2. cbn. constructor; [split; [reflexivity|exact Hty]|]. exact Hal1. }
      assert (Hap2 : apart (item_ids (erase_spec items)) sc2).
      { intros a [<-|Ha]; cbn.
        - apply Hdisj. apply expr_id_in.
        - destruct Hf as [A _]. rewrite A in Ha. intros Hin. apply (Hap a Ha). apply in_or_app. auto. }
      assert (Hfr2 : fresh (item_ids (erase_spec items)) sc2).
      { intros id Hid. unfold sc2. cbn. destruct Hf as [_ F]. destruct (F id) as [-> _].
        - intros Hi. exact (Hdisj id Hi Hid).
        - apply Hfr. apply in_or_app. auto. }
      specialize (IH ((name, target_of te) :: G) sc2 Hal2 Hnd2 Hap2 Hfr2).
      destruct (selab_items O SO env ((name, target_of te) :: G) items) as [tis|er s|p]; cbn [sbind]; [|exact IH|exact IH].
      destruct IH as (sc3 & -> & Hsame & HF). exists sc3. split; [reflexivity|]. split.
      * intros id Hid. unfold item_ids, erase_spec in Hid. cbn [map fst flat_map snd] in Hid. fold (erase_spec items) in Hid. fold (item_ids (erase_spec items)) in Hid.
        assert (~ In id (ids (erase_expr e)) /\ ~ In id (item_ids (erase_spec items))) as [H1 H2] by (split; intros H; apply Hid; apply in_or_app; auto).
        destruct Hf as [_ F]. destruct (F id H1), (Hsame id H2). unfold sc2 in *. cbn in *. split; congruence.
      * constructor; [|exact HF]. split; [reflexivity|]. cbn [snd].
        apply (encodes_agree te sc1 sc3 (erase_expr e)); [|exact Henc]. intros id Hid.
        destruct (Hsame id (Hdisj id Hid)) as [S1 S2]. unfold sc2 in *. cbn in *. split; assumption.
    + destruct H as [-> Hne]. destruct e as [id v|id n h args raw].
      * exfalso. eapply value_elab. exact Ee.
      * f_equal. cbn [erase_expr elab] in Ee. unfold resolve_failure, refusal. cbn [erase_expr].
        destruct (get_func_variants env n) as [fs|] eqn:Ef; [|injection Ee as <-; reflexivity].
        destruct (best _) as [[[c g] tes]|]; [discriminate|]. injection Ee as <-. unfold pretty_func_sig. rewrite Ef. cbn [option_map].
        rewrite pretty_is_join by (intros x Hx; apply in_map_iff in Hx as (g & <- & _); apply signature_nonempty). reflexivity.
Qed.
End Resolve.

(** ** Evaluation *)
Lemma assoc_N_in {A} (l : list (N * A)) k v : NoDup (map fst l) -> In (k, v) l -> assoc_N k l = Some v.
Proof.
  induction l as [|[k' v'] l IH]; intros Hnd; [intros []|]. inversion Hnd as [|? ? Hn Hnd']; subst. cbn [assoc_N map fst] in *. intros [E|H].
  - injection E as -> ->. rewrite N.eqb_refl. reflexivity.
  - destruct (N.eqb_spec k k') as [->|]; [|apply IH; assumption]. exfalso. apply Hn. change k' with (fst (k', v)). apply in_map. exact H.
Qed.
Lemma nodes_ids e : map fst (nodes e) = ids (erase_expr e).
Proof.
  induction e as [id v|id name head args raw IH] using sexpr_ind'; [reflexivity|]. cbn [nodes map fst erase_expr ids]. f_equal.
  rewrite map_app. f_equal.
  - induction IH as [|e args He _ IH']; [reflexivity|]. cbn [flat_map map]. rewrite map_app, He, IH'. reflexivity.
  - destruct raw as [[]|]; reflexivity.
Qed.
Lemma item_nodes_ids items : map fst (item_nodes items) = item_ids (erase_spec items).
Proof.
  rewrite erase_spec_ids. unfold item_nodes. induction items as [|i items IH]; [reflexivity|]. cbn [flat_map]. rewrite map_app, IH, nodes_ids. reflexivity.
Qed.
Lemma nodes_self e : In (expr_id (erase_expr e), e) (nodes e).
Proof. destruct e; left; reflexivity. Qed.
Lemma given_erase f args raw :
  given f (map erase_expr args) (option_map (fun r => (fst r, map erase (snd r))) raw) = map erase_expr (sgiven f args raw).
Proof.
  unfold given, sgiven. destruct (f_arg_types f) as [|t ts]; [reflexivity|]. destruct t, ts; try reflexivity. destruct raw as [[]|]; reflexivity.
Qed.
Lemma sgiven_nodes f id name head args raw a : In a (sgiven f args raw) -> incl (nodes a) (nodes (SECall id name head args raw)).
Proof.
  intros H x Hx. cbn [nodes]. right. apply in_or_app. unfold sgiven in H.
  assert (G : In a args -> In x (flat_map nodes args)) by (intros Ha; apply in_flat_map; eauto).
  destruct (f_arg_types f) as [|t ts]; [auto|]. destruct t, ts; try (left; apply G; exact H).
  destruct raw as [[rid ts]|]; [|left; apply G; exact H]. right. destruct H as [<-|[]]. exact Hx.
Qed.
Lemma sgiven_depth f id name head args raw a : In a (sgiven f args raw) ->
  expr_depth (erase_expr a) < expr_depth (erase_expr (SECall id name head args raw)).
Proof.
  intros H. cbn [erase_expr].
  assert (G : In a args -> expr_depth (erase_expr a) < expr_depth (ECall id name (map erase_expr args) (option_map (fun r => (fst r, map erase (snd r))) raw)))
    by (intros Ha; apply depth_arg; apply in_map; exact Ha).
  unfold sgiven in H. destruct (f_arg_types f) as [|t ts]; [auto|]. destruct t, ts; try (apply G; exact H).
  destruct raw as [[rid ts]|]; [|apply G; exact H]. destruct H as [<-|[]]. cbn.
  assert (1 <= fold_right (fun a n => Nat.max (expr_depth a) n) 1 (map erase_expr args)) by (clear; induction (map erase_expr args); cbn; lia). lia.
Qed.

Section EvalOk.
Context (O : oracles) (SO : soracles) (env : environment) (sc : scope) (tree : list (N * sexpr)).
Hypothesis unique : NoDup (map fst tree).

Lemma seval_encodes te : forall e fuel ctx,
  incl (nodes e) tree -> encodes sc te (erase_expr e) -> expr_depth (erase_expr e) <= fuel ->
  seval_expr O SO env sc tree fuel ctx e = srun O SO (e_seed env) ctx te e.
Proof.
  induction te as [v t|f tes t IH] using texpr_ind'; intros e fuel ctx Hn He Hfuel;
    (destruct fuel as [|fuel]; [pose proof (depth_pos (erase_expr e)); lia|]);
    destruct e as [id v'|id name head args raw]; cbn [erase_expr encodes] in He; try contradiction.
  - destruct He as (_ & c & Hc). cbn [seval_expr srun]. unfold seval_value. rewrite Hc. cbn [vm_target].
    destruct (stry_cast O SO _ t); reflexivity.
  - destruct He as (as' & c & Hc & -> & Hall). cbn [seval_expr srun]. rewrite Hc. cbn [cm_args cm_func cm_target].
    rewrite given_erase in *.
    match goal with |- sbind ?a _ = sbind ?b _ => assert (E : a = b); [|rewrite E; reflexivity] end.
    assert (Hsub : forall a, In a (sgiven f args raw) -> incl (nodes a) tree /\ expr_depth (erase_expr a) <= fuel).
    { intros a Ha. split.
      - intros x Hx. apply Hn. eapply sgiven_nodes; eassumption.
      - pose proof (sgiven_depth f id name head args raw a Ha). lia. }
    clear Hc Hn Hfuel. revert Hall Hsub. generalize (sgiven f args raw). induction IH as [|te tes Hte _ IHtes]; intros [|a l] Hall Hsub; cbn in Hall; try contradiction; [reflexivity|].
    destruct Hall as [Ha Hall]. destruct (Hsub a (or_introl eq_refl)) as [Hn' Hd]. cbn [map smapM smap2].
    rewrite (assoc_N_in tree _ a unique (Hn' _ (nodes_self a))), (Hte a fuel ctx Hn' Ha Hd), (IHtes l Hall); [reflexivity|].
    intros b Hb. apply Hsub. right. exact Hb.
Qed.
Lemma seval_items_ok items : forall ctx tis, incl (item_nodes items) tree ->
  Forall2 (fun it ti => fst it = fst ti /\ encodes sc (snd ti) (erase_expr (snd it))) items tis ->
  seval_items O SO env sc tree ctx items = srun_items O SO (e_seed env) ctx tis items.
Proof.
  induction items as [|[name e] items IH]; intros ctx tis Hn H; inversion H as [|? [name' te] ? ? [H1 H2] H3]; subst; [reflexivity|].
  cbn [fst snd] in H1, H2. subst name'. cbn [seval_items srun_items].
  assert (Hn1 : incl (nodes e) tree) by (intros x Hx; apply Hn; apply in_or_app; left; exact Hx).
  assert (Hn2 : incl (item_nodes items) tree) by (intros x Hx; apply Hn; apply in_or_app; right; exact Hx).
  rewrite (seval_encodes te e (S (expr_depth (erase_expr e))) ctx Hn1 H2) by lia.
  destruct (srun _ _ _ ctx te e); [|reflexivity|reflexivity]. cbn [sbind]. rewrite (IH _ _ Hn2 H3). reflexivity.
Qed.
End EvalOk.

Lemma smake_substitutions_spec O SO env items : NoDup (item_ids (erase_spec items)) ->
  smake_substitutions O SO env items = sbindings O SO env items.
Proof.
  intros Hnd. unfold smake_substitutions, sbindings.
  pose proof (sresolve_items_ok O SO env items [] empty_scope (Forall2_nil _) Hnd
    (fun a (Ha : In a []) => match Ha with end) (fun id _ => eq_refl)) as H.
  destruct (selab_items O SO env [] items) as [tis|er s|p].
  - destruct H as (sc' & -> & _ & HF). cbn [sbind]. apply seval_items_ok; [rewrite item_nodes_ids; exact Hnd|apply incl_refl|exact HF].
  - rewrite H. reflexivity.
  - contradiction.
Qed.

(** ** Erasing the spans *)
Section Erase.
Context (O : oracles) (SO : soracles) (seed n : N).
Notation env := (new_initialized O seed n).

Fixpoint elaborates (te : texpr) (e : sexpr) : Prop :=
  match te, e with
  | TEVal v _, SEValue _ v' => v = erase_value v'
  | TECall f tes _, SECall _ name _ args raw => (builtin O f /\ f_name f = name) /\ all2 elaborates tes (sgiven f args raw)
  | _, _ => False
  end.
Lemma elab_elaborates G e : forall ex te c, elab env G (erase_expr e) ex = inl (te, c) -> elaborates te e.
Proof.
  induction e as [id v|id name head args raw IH] using sexpr_ind'; cbn [erase_expr elab]; intros ex te c H.
  - destruct (coercion_cost _ _); [|discriminate]. injection H as <- _. reflexivity.
  - destruct (get_func_variants env name) as [fs|] eqn:Ef; [|discriminate].
    destruct (best _) as [[[d f] tes]|] eqn:E; [|discriminate]. injection H as <- <-.
    apply best_in, viable_in in E as [Hin E]. cbn [elaborates]. split; [eapply builtin_variants; eassumption|].
    apply elab_func_inv in E as (c0 & _ & [(ts & H1 & H2 & _ & ->)|(H1 & ps & c' & Hp & Ha & _)]).
    + unfold sgiven. rewrite H1. destruct raw as [[rid ts']|]; [|discriminate]. cbn in H2. injection H2 as <-. cbn. auto.
    + assert (Hg : sgiven f args raw = args).
      { unfold sgiven. destruct (f_arg_types f) as [|t ts]; [reflexivity|]. destruct t, ts; try reflexivity.
        destruct raw as [[]|]; [|reflexivity]. exfalso. apply H1. split; [reflexivity|discriminate]. }
      rewrite Hg. apply elab_args_inv in Ha; [|rewrite (params_length _ _ _ Hp), map_length; reflexivity].
      rewrite !map_length in Hp. apply params_length in Hp. revert tes ps Hp Ha. clear Hg H1 Ef Hin.
      induction IH as [|e args He _ IH']; intros tes ps Hl Ha; destruct ps as [|p ps]; try discriminate; cbn in Ha; inversion Ha as [|? te ? tes' [d' Hd] Ha']; subst; [exact I|].
      cbn in Hd. split; [eapply He; exact Hd|]. eapply IH'; [|exact Ha']. cbn in Hl. congruence.
Qed.

Hypothesis L : spanless O SO.
Lemma assoc_erase x (ctx : scontext) : assoc_str x (erase_bindings ctx) = option_map erase_value (assoc_str x ctx).
Proof. induction ctx as [|[y v] ctx IH]; [reflexivity|]. cbn. destruct (str_eqb x y); [reflexivity|exact IH]. Qed.

Lemma forget_bind {A B C D} (f : A -> C) (g : B -> D) (x : sres A) (k : A -> sres B) (k' : C -> res D) :
  (forall a, forget g (k a) = k' (f a)) -> forget g (sbind x k) = bind (forget f x) k'.
Proof. intros H. destruct x; cbn; [apply H|reflexivity|reflexivity]. Qed.

Lemma srun_erase te : forall e ctx, elaborates te e ->
  forget erase_value (srun O SO seed ctx te e) = run O seed (erase_bindings ctx) te.
Proof.
  induction te as [v t|f tes t IH] using texpr_ind'; intros e ctx He; destruct e as [id v'|id name head args raw]; cbn [elaborates] in He; try contradiction.
  - subst v. cbn [srun run].
    assert (E : erase_value (match v' with SVIdent x _ => match assoc_str x ctx with Some w => w | None => v' end | _ => v' end) =
       match erase_value v' with VIdent x => match assoc_str x (erase_bindings ctx) with Some w => w | None => erase_value v' end | _ => erase_value v' end).
    { destruct v'; try reflexivity. cbn [erase_value]. rewrite assoc_erase. destruct (assoc_str x ctx); reflexivity. }
    rewrite <- E, <- (cast_erase O SO) by exact L. unfold coerced. destruct (stry_cast O SO _ t); reflexivity.
  - destruct He as [[B Hn] Hall]. cbn [srun run].
    assert (Ha : forget (map erase_value) (smap2 (srun O SO seed ctx) tes (sgiven f args raw)) = mapM (run O seed (erase_bindings ctx)) tes).
    { revert Hall. generalize (sgiven f args raw). clear B. induction IH as [|te tes Hte _ IHtes]; intros [|a l] Hall; cbn in Hall; try contradiction; [reflexivity|].
      destruct Hall as [H1 H2]. cbn [smap2 mapM]. rewrite <- (Hte a ctx H1). apply forget_bind. intros v. rewrite <- (IHtes l H2). apply forget_bind. reflexivity. }
    rewrite <- Ha. apply forget_bind. intros vs. rewrite <- (simpl_of_erase O SO f seed head vs L B). apply forget_bind. intros r. apply cast_erase. exact L.
Qed.

Lemma elab_none_error G e er : elab env G (erase_expr e) None = inr er ->
  exists id f head args raw, e = SECall id f head args raw /\ (er = SignatureError f \/ er = UndefinedFunctionError f).
Proof.
  destruct e as [id v|id f head args raw]; cbn [erase_expr elab].
  - rewrite cost_same. discriminate.
  - intros H. exists id, f, head, args, raw. split; [reflexivity|]. destruct (get_func_variants env f); [|injection H as <-; auto].
    destruct (best _) as [[[c g] tes]|]; [discriminate|]. injection H as <-. auto.
Qed.
Lemma selab_erase items : forall G, forget (fun x => x) (selab_items O SO env G items) = elab_items env G (erase_spec items).
Proof.
  induction items as [|[name e] items IH]; intros G; [reflexivity|]. unfold erase_spec. cbn [map fst snd selab_items elab_items]. fold (erase_spec items).
  destruct (elab env G (erase_expr e) None) as [[te c]|er] eqn:Ee.
  2:{ destruct (elab_none_error G e er Ee) as (id & f & head & args & raw & -> & [->| ->]); reflexivity. }
  destruct (assoc_str name G); [reflexivity|].
  rewrite <- IH. apply forget_bind. reflexivity.
Qed.
Lemma selab_elaborates items : forall G tis, selab_items O SO env G items = SOk tis ->
  Forall2 (fun it ti => fst it = fst ti /\ elaborates (snd ti) (snd it)) items tis.
Proof.
  induction items as [|[name e] items IH]; intros G tis H; cbn [selab_items] in H; [injection H as <-; constructor|].
  destruct (elab env G (erase_expr e) None) as [[te c]|er] eqn:E; [|discriminate]. destruct (assoc_str name G); [discriminate|].
  destruct (selab_items O SO env _ items) as [tis'|er s|p] eqn:E'; try discriminate. injection H as <-. constructor; [|eapply IH; exact E'].
  split; [reflexivity|]. cbn [snd]. eapply elab_elaborates; exact E.
Qed.
Lemma srun_items_erase items : forall tis ctx, Forall2 (fun it ti => fst it = fst ti /\ elaborates (snd ti) (snd it)) items tis ->
  forget erase_bindings (srun_items O SO seed ctx tis items) = run_items O seed (erase_bindings ctx) tis.
Proof.
  induction items as [|[name e] items IH]; intros tis ctx H; inversion H as [|? [name' te] ? ? [H1 H2] H3]; subst; [reflexivity|].
  cbn [fst snd] in H1, H2. subst name'. cbn [srun_items run_items].
  rewrite <- (srun_erase te e ctx H2). apply forget_bind. intros v.
  change ((name, erase_value v) :: erase_bindings ctx) with (erase_bindings ((name, v) :: ctx)). rewrite <- (IH _ _ H3). apply forget_bind. reflexivity.
Qed.
Lemma sbindings_erase items : forget erase_bindings (sbindings O SO env items) = bindings O env (erase_spec items).
Proof.
  unfold sbindings, bindings. rewrite <- selab_erase. destruct (selab_items O SO env [] items) as [tis|er s|p] eqn:E; try reflexivity.
  cbn [sbind forget bind]. apply (srun_items_erase items tis []). eapply selab_elaborates; exact E.
Qed.
Lemma smake_substitutions_erase items c : NoDup (item_ids (erase_spec items)) ->
  forget erase_bindings (smake_substitutions O SO env items) = make_substitutions O env {| spec_items := erase_spec items; is_comma_used := c |}.
Proof.
  intros H. rewrite smake_substitutions_spec by exact H. rewrite make_substitutions_spec by exact H. apply sbindings_erase.
Qed.

(** ** Where spans come from *)
Hypothesis I : inherited SO.

Lemma reading_from t ts : incl (reading_spans SO t ts) (call_site :: spans ts).
Proof.
  assert (H1 : forall s, In s (spans ts) -> incl [s] (call_site :: spans ts)) by (intros s Hs x [<-|[]]; right; exact Hs).
  assert (H0 : incl [] (call_site :: spans ts)) by apply incl_nil_l.
  destruct t; cbn [reading_spans]; try (intros x Hx; right; exact Hx).
  - destruct (sparse_lit_str SO ts); [intros x [<-|[]]; left; reflexivity|].
    destruct (sparse_ident SO ts) as [[x s]|] eqn:E; [apply H1; eapply inherited_ident; eassumption|exact H0].
  - destruct (sparse_path SO ts) eqn:E; [eapply inherited_path; eassumption|exact H0].
  - destruct (sparse_type SO ts) eqn:E; [eapply inherited_type; eassumption|exact H0].
  - destruct (sparse_expr SO ts) eqn:E; [eapply inherited_expr; eassumption|exact H0].
  - destruct (sparse_ident SO ts) as [[x s]|] eqn:E; [apply H1; eapply inherited_ident; eassumption|].
    destruct (sparse_lit_str SO ts) as [[[x p] s]|] eqn:E'; [apply H1; eapply inherited_lit_str; eassumption|exact H0].
  - destruct (sparse_lit_int SO ts) as [[[x p] s]|] eqn:E; [apply H1; eapply inherited_lit_int; eassumption|exact H0].
Qed.
Lemma cast_from v t : incl (cast_spans SO v t) (call_site :: value_spans v).
Proof.
  unfold cast_spans. destruct (ty_eqb (stype_of v) t); [intros x Hx; right; exact Hx|].
  destruct v; try apply reading_from; destruct t; try apply reading_from; try (intros x' [<-|[]]; cbn; auto; fail).
Qed.
Lemma source_from src at_ vs : incl (source_spans SO src at_ vs) (call_site :: at_ :: flat_map value_spans vs).
Proof.
  destruct src; cbn [source_spans].
  - intros x Hx. right. right. exact Hx.
  - intros x [<-|[]]. right. left. reflexivity.
  - intros x [<-|[]]. left. reflexivity.
  - intros x Hx. apply reading_from in Hx. rewrite spans_flat_map in Hx. cbn in *. tauto.
Qed.

Notation ctx_spans ctx := (flat_map (fun b : str * svalue => value_spans (snd b)) ctx).
Lemma assoc_spans x (ctx : scontext) w : assoc_str x ctx = Some w -> incl (value_spans w) (ctx_spans ctx).
Proof.
  induction ctx as [|[y v] ctx IH]; [discriminate|]. cbn. destruct (str_eqb x y); [intros H; injection H as ->; apply incl_appl, incl_refl|].
  intros H. apply incl_appr. apply IH. exact H.
Qed.
Lemma sgiven_spans f id name head args raw a : In a (sgiven f args raw) -> incl (expr_spans a) (expr_spans (SECall id name head args raw)).
Proof.
  intros H x Hx. cbn [expr_spans]. right. apply in_or_app. unfold sgiven in H.
  assert (G : In a args -> In x (flat_map expr_spans args)) by (intros Ha; apply in_flat_map; eauto).
  destruct (f_arg_types f) as [|t ts]; [auto|]. destruct t, ts; try (left; apply G; exact H).
  destruct raw as [[rid ts]|]; [|left; apply G; exact H]. right. destruct H as [<-|[]]. exact Hx.
Qed.
Lemma smap2_in ctx tes : forall l vs, all2 elaborates tes l -> smap2 (srun O SO seed ctx) tes l = SOk vs ->
  forall v, In v vs -> exists te a, In te tes /\ In a l /\ elaborates te a /\ srun O SO seed ctx te a = SOk v.
Proof.
  induction tes as [|te tes IH]; intros [|a l] vs Hall H v Hv; cbn in Hall; try contradiction; cbn [smap2] in H; [injection H as <-; contradiction|].
  destruct Hall as [H1 H2]. destruct (srun O SO seed ctx te a) as [v'|er s|p] eqn:E; try discriminate. cbn [sbind] in H.
  destruct (smap2 _ tes l) as [vs'|er s|p] eqn:E'; try discriminate. injection H as <-. destruct Hv as [<-|Hv].
  - exists te, a. cbn. auto.
  - destruct (IH l vs' H2 E' v Hv) as (te' & a' & P1 & P2 & P3 & P4). exists te', a'. cbn. auto.
Qed.
Lemma srun_from te : forall e ctx v, elaborates te e -> srun O SO seed ctx te e = SOk v ->
  incl (value_spans v) (call_site :: ctx_spans ctx ++ expr_spans e).
Proof.
  induction te as [v0 t|f tes t IH] using texpr_ind'; intros e ctx v He H; destruct e as [id v'|id name head args raw]; cbn [elaborates] in He; try contradiction.
  - cbn [srun] in H.
    assert (E : incl (value_spans (match v' with SVIdent x _ => match assoc_str x ctx with Some w => w | None => v' end | _ => v' end)) (ctx_spans ctx ++ value_spans v')).
    { destruct v'; try (apply incl_appr, incl_refl). destruct (assoc_str x ctx) as [w|] eqn:Ex; [|apply incl_appr, incl_refl].
      apply incl_appl. eapply assoc_spans; exact Ex. }
    destruct (stry_cast O SO _ t) as [w|er s|p] eqn:Ec; try discriminate. injection H as <-. rewrite (cast_rule _ _ _ _ _ Ec).
    intros x Hx. apply cast_from in Hx as [Hx|Hx]; [left; exact Hx|right; apply E; exact Hx].
  - destruct He as [[B Hn] Hall]. cbn [srun] in H.
    destruct (smap2 _ tes _) as [vs|er s|p] eqn:E1; try discriminate. cbn [sbind] in H.
    destruct (simpl_of O SO f seed head vs) as [r|er s|p] eqn:E2; try discriminate. cbn [sbind] in H.
    rewrite (cast_rule _ _ _ _ _ H). intros x Hx. apply cast_from in Hx as [Hx|Hx]; [left; exact Hx|].
    destruct (builtin_sources O SO f L B) as (src & _ & Hs). rewrite (Hs _ _ _ _ E2) in Hx. apply source_from in Hx as [Hx|[Hx|Hx]].
    + left; exact Hx.
    + right. apply in_or_app. right. left. exact Hx.
    + apply in_flat_map in Hx as (w & Hw & Hx). destruct (smap2_in ctx tes _ vs Hall E1 w Hw) as (te & a & P1 & P2 & P3 & P4).
      rewrite Forall_forall in IH. apply (IH te P1 a ctx w P3 P4) in Hx as [Hx|Hx]; [left; exact Hx|]. right. apply in_or_app. apply in_app_or in Hx as [Hx|Hx]; [left; exact Hx|].
      right. eapply sgiven_spans; eassumption.
Qed.
Lemma srun_items_from items : forall tis ctx bs, Forall2 (fun it ti => fst it = fst ti /\ elaborates (snd ti) (snd it)) items tis ->
  srun_items O SO seed ctx tis items = SOk bs ->
  forall pre x v post, bs = pre ++ (x, v) :: post ->
  incl (value_spans v) (call_site :: ctx_spans ctx ++ places (firstn (S (List.length pre)) items)).
Proof.
  induction items as [|[name e] items IH]; intros tis ctx bs H Hr pre x v post Hb; inversion H as [|? [name' te] ? ? [H1 H2] H3]; subst tis; cbn [srun_items] in Hr.
  - injection Hr as <-. destruct pre; discriminate.
  - destruct (srun O SO seed ctx te e) as [w|er s|p] eqn:E; try discriminate. cbn [sbind] in Hr.
    destruct (srun_items O SO seed _ l' items) as [bs'|er s|p] eqn:E'; try discriminate. injection Hr as <-.
    cbn [snd] in H2. pose proof (srun_from te e ctx w H2 E) as Hw.
    destruct pre as [|b pre]; cbn [app] in Hb.
    + injection Hb as Hx Hv Hp. subst w. cbn. unfold places. cbn. rewrite app_nil_r. exact Hw.
    + injection Hb as Hb1 Hb2. subst b. specialize (IH l' ((name', w) :: ctx) bs' H3 E' pre x v post Hb2). intros y Hy. apply IH in Hy as [Hy|Hy]; [left; exact Hy|].
      cbn [flat_map snd firstn List.length]. unfold places in *. cbn [firstn flat_map snd] in *.
      rewrite <- app_assoc in Hy. apply in_app_or in Hy as [Hy|Hy].
      * apply Hw in Hy as [Hy|Hy]; [left; exact Hy|]. right. rewrite !in_app_iff in *. tauto.
      * right. rewrite !in_app_iff in *. tauto.
Qed.
Lemma spans_of_bindings items bs pre x v post : NoDup (item_ids (erase_spec items)) ->
  smake_substitutions O SO env items = SOk bs -> bs = pre ++ (x, v) :: post ->
  incl (value_spans v) (call_site :: places (firstn (S (List.length pre)) items)).
Proof.
  intros Hnd H Hb. rewrite smake_substitutions_spec in H by exact Hnd. unfold sbindings in H.
  destruct (selab_items O SO env [] items) as [tis|er s|p] eqn:E; try discriminate. cbn [sbind] in H.
  exact (srun_items_from items tis [] bs (selab_elaborates items [] tis E) H pre x v post Hb).
Qed.

(** ** Where errors are reported, and what they say *)
Lemma type_text_tokens t ts : unread SO t ts -> type_text O SO (txt "Unable to cast Tokens to " ++ ty_debug t ++ txt ": " ++ syn_error_text SO t ts).
Proof. intros H. left. exists t, ts. auto. Qed.
Lemma cast_error_at v t er s : stry_cast O SO v t = SErr er s ->
  exists m, er = FType m /\ In s (call_site :: value_spans v) /\ (stype_of v = TyTokens -> is_variadic_ty t = false -> type_text O SO m).
Proof.
  assert (F : In (syn_error_at SO t (sto_tokens v)) (call_site :: value_spans v)) by apply (inherited_error SO I).
  set (goal := exists m, er = FType m /\ In s (call_site :: value_spans v) /\ (stype_of v = TyTokens -> is_variadic_ty t = false -> type_text O SO m)).
  assert (H0 : forall (A : Type) (o : option A) g, (o = None -> unread SO t (sto_tokens v)) ->
    or_error_at (cast_error (stype_of v) t (syn_error_text SO t (sto_tokens v))) (syn_error_at SO t (sto_tokens v)) o g = SErr er s -> goal).
  { intros A [a|] g Hu; cbn; [discriminate|]. intros H. injection H as <- <-. eexists. split; [reflexivity|]. split; [exact F|].
    intros -> _. apply type_text_tokens. auto. }
  assert (H1 : forall x, sfrom_lit_str_as_ident O SO x = SErr er s -> goal).
  { intros x. unfold sfrom_lit_str_as_ident. destruct (parse_str_ident O x) eqn:E; [discriminate|]. cbn. intros H. injection H as <- <-.
    eexists. split; [reflexivity|]. split; [left; reflexivity|]. intros _ _. right. exists x. auto. }
  unfold stry_cast. destruct (ty_eqb (stype_of v) t); [discriminate|].
  destruct v; destruct t; try discriminate; try apply H1;
  try (apply H0; cbn [unread]; auto; fail);
  try (intros H; injection H as <- <-; eexists; split; [reflexivity|]; split; [left; reflexivity|discriminate]);
  try (destruct (sparse_lit_str SO _) as [[[] ?]|] eqn:El; [apply H1|apply H0; intros Ei; split; assumption]);
  try (destruct (sparse_ident SO _) as [[]|] eqn:Ei; [discriminate|apply H0; intros El; split; assumption]).
Qed.
Lemma cast_error_never v t er s w : try_cast O (erase_value v) t = Ok w -> stry_cast O SO v t <> SErr er s.
Proof. intros H E. rewrite <- (cast_erase O SO v t L), E in H. discriminate. Qed.

Definition error_rule (name : str) (g : simpl_t) := forall seed at_ vs er s, g seed at_ vs = SErr er s ->
  (exists m, er = FEval m /\ name = txt "concat" /\ s = at_ /\ eval_text O m) \/
  (exists m, er = FType m /\ In s (call_site :: flat_map value_spans vs) /\ type_text O SO m).
Lemma snew_ident_no_error x at_ er s : snew_ident O x at_ <> SErr er s.
Proof. unfold snew_ident. destruct (ident_ok O x); discriminate. Qed.
Lemma scollect_texts (g : svalue -> option str) vs l : (forall v, In v vs -> g v = Some (to_string O (map erase (sto_tokens v))) \/ g v = None) ->
  scollect g vs = Some l -> l = map (fun v => to_string O (map erase (sto_tokens v))) vs.
Proof.
  revert l. induction vs as [|v vs IH]; intros l Hg; cbn [scollect]; [intros H; injection H as <-; reflexivity|].
  destruct (Hg v (or_introl eq_refl)) as [-> | ->]; [|discriminate].
  destruct (scollect g vs) as [l'|] eqn:E; [|discriminate]. intros H; injection H as <-. cbn. f_equal. apply IH; [|reflexivity]. intros w Hw. apply Hg. right. exact Hw.
Qed.
Lemma stable_errors : Forall (fun r : srow => Forall (fun o : list ty * simpl_t => error_rule (fst r) (snd o)) (snd r)) (stable O SO).
Proof.
  assert (H1 : forall n g, error_rule n (sstr_func_lit g)) by (intros fn g sd at_ vs er s; destruct vs as [|[] [|]]; discriminate).
  assert (H2 : forall n g, error_rule n (sstr_func_ident O g)) by (intros fn g sd at_ vs er s; destruct vs as [|[] [|]]; try discriminate; intros H; apply snew_ident_no_error in H; contradiction).
  assert (H3 : forall n t, is_variadic_ty t = false -> error_rule n (simpl_to O SO t)).
  { intros fn t Ht sd at_ vs er s. unfold simpl_to. destruct vs as [|[] [|]]; try discriminate. intros H. right. cbn [flat_map]. rewrite app_nil_r.
    apply cast_error_at in H as (m & -> & Hs & Hm). exists m. split; [reflexivity|]. split; [exact Hs|]. apply Hm; [reflexivity|exact Ht]. }
  unfold stable, sstr_funcs.
  repeat (apply Forall_cons; [cbn [snd fst]; repeat (apply Forall_cons; [cbn [snd fst]|]); try apply Forall_nil|]); try apply Forall_nil.
  all: try apply H1; try apply H2; try (apply H3; reflexivity).
  all: intros sd at_ vs er s; try (destruct vs as [|[] [|]]; try discriminate; intros H; exfalso; eapply snew_ident_no_error; exact H).
  - unfold simpl_concat_idents. destruct (scollect _ vs); [|discriminate]. intros H; exfalso; eapply snew_ident_no_error; exact H.
  - unfold simpl_concat_ident_tokens. destruct vs as [|v vs]; [discriminate|]. destruct (scollect _ vs) as [l|] eqn:El; [|discriminate].
    destruct (parse_str_ident O _) eqn:Ep; [discriminate|]. intros H; injection H as <- <-. left. eexists. split; [reflexivity|]. split; [reflexivity|]. split; [reflexivity|].
    exists (to_string O (map erase (sto_tokens v)) :: l). split; [exact Ep|].
    apply scollect_texts in El; [rewrite El; reflexivity|]. intros [] _; auto.
  - unfold simpl_concat_strs. destruct (scollect _ vs); discriminate.
  - unfold simpl_concat_ints. destruct (scollect _ vs); [|discriminate]. destruct (lit_int_new O _) as [[]|]; discriminate.
  - unfold simpl_concat_tokens. destruct (scollect _ vs); discriminate.
Qed.
Lemma builtin_errors f : builtin O f -> error_rule (f_name f) (simpl_of O SO f).
Proof.
  intros B. destruct (builtin_overload O SO f L B) as (l & s & H1 & H2 & H3 & _).
  assert (H1' : In (f_name f, l) (stable O SO)).
  { clear - H1. induction (stable O SO) as [|[n l'] r IH]; [discriminate|]. cbn in H1. destruct (str_eqb (f_name f) n) eqn:E; [|right; auto].
    apply str_eqb_eq in E as ->. injection H1 as ->. left; reflexivity. }
  pose proof stable_errors as HF. rewrite Forall_forall in HF. specialize (HF _ H1'). cbn [fst snd] in HF.
  rewrite Forall_forall in HF. specialize (HF _ H3). intros sd at_ vs er s'. unfold simpl_of. rewrite H1, H2. apply HF.
Qed.

Lemma smap2_error ctx tes : forall l er s, all2 elaborates tes l -> smap2 (srun O SO seed ctx) tes l = SErr er s ->
  exists te a, In te tes /\ In a l /\ elaborates te a /\ srun O SO seed ctx te a = SErr er s.
Proof.
  induction tes as [|te tes IH]; intros [|a l] er s Hall H; cbn in Hall; try contradiction; cbn [smap2] in H; [discriminate|].
  destruct Hall as [H1 H2]. destruct (srun O SO seed ctx te a) as [v'|er' s'|p] eqn:E; try discriminate; cbn [sbind] in H.
  - destruct (smap2 _ tes l) as [vs'|er' s'|p] eqn:E'; try discriminate. injection H as -> ->.
    destruct (IH l er s H2 E') as (te' & a' & P1 & P2 & P3 & P4). exists te', a'. cbn. auto.
  - injection H as -> ->. exists te, a. cbn. auto.
Qed.
Lemma sgiven_heads f args raw a : In a (sgiven f args raw) -> incl (call_heads a) (flat_map call_heads args).
Proof.
  intros H x Hx. unfold sgiven in H.
  assert (G : In a args -> In x (flat_map call_heads args)) by (intros Ha; apply in_flat_map; eauto).
  destruct (f_arg_types f) as [|t ts]; [auto|]. destruct t, ts; try (apply G; exact H).
  destruct raw as [[rid ts]|]; [|apply G; exact H]. destruct H as [<-|[]]. contradiction.
Qed.
Lemma simpl_result f sd at_ vs r : builtin O f -> simpl_of O SO f sd at_ vs = SOk r -> type_of (erase_value r) = f_out_type f.
Proof.
  intros (rs & Ha & Hin) H.
  pose proof (simpl_of_erase O SO f sd at_ vs L (ex_intro _ rs (conj Ha Hin))) as E. rewrite H in E. cbn [forget] in E.
  pose proof (table_result O) as T. rewrite Forall_forall in T.
  assert (Hr : In (f_name f, rs) (table O)).
  { clear - Ha. induction (table O) as [|[n l'] t IH]; [discriminate|]. cbn in Ha. destruct (str_eqb (f_name f) n) eqn:E; [|right; auto].
    apply str_eqb_eq in E as ->. injection Ha as ->. left; reflexivity. }
  specialize (T _ Hr). unfold row_result in T. rewrite Forall_forall in T. exact (T _ Hin sd (map erase_value vs) (erase_value r) (eq_sym E)).
Qed.
Lemma tame_in te tes : fold_right (fun te P => tame O te /\ P) True tes -> In te tes -> tame O te.
Proof. induction tes as [|x tes IH]; intros H; [intros []|]. destruct H as [H1 H2]. intros [<-|Hi]; auto. Qed.
Lemma srun_error te : forall e ctx er s, elaborates te e -> tame O te -> srun O SO seed ctx te e = SErr er s ->
  (exists m, er = FEval m /\ In (txt "concat", s) (call_heads e) /\ eval_text O m) \/
  (exists m, er = FType m /\ In s (call_site :: ctx_spans ctx ++ expr_spans e) /\ type_text O SO m).
Proof.
  induction te as [v0 t|f tes t IH] using texpr_ind'; intros e ctx er s He Ht H; destruct e as [id v'|id name head args raw]; cbn [elaborates] in He; try contradiction.
  - cbn [srun] in H. destruct (stry_cast O SO _ t); discriminate.
  - destruct He as [[B Hn] Hall]. cbn [srun] in H. destruct Ht as [Ht1 Ht2].
    destruct (smap2 _ tes _) as [vs|er' s'|p] eqn:E1; try discriminate; cbn [sbind] in H.
    + assert (HA : incl (flat_map value_spans vs) (call_site :: ctx_spans ctx ++ expr_spans (SECall id name head args raw))).
      { intros x Hx. apply in_flat_map in Hx as (w & Hw & Hx). destruct (smap2_in ctx tes _ vs Hall E1 w Hw) as (te & a & P1 & P2 & P3 & P4).
        apply (srun_from te a ctx w P3 P4) in Hx as [Hx|Hx]; [left; exact Hx|]. right. apply in_or_app. apply in_app_or in Hx as [Hx|Hx]; [left; exact Hx|].
        right. eapply sgiven_spans; eassumption. }
      destruct (simpl_of O SO f seed head vs) as [r|er' s'|p] eqn:E2; try discriminate; cbn [sbind] in H.
      * exfalso. destruct (Ht1 _ (simpl_result f seed head vs r B E2)) as [w Hw]. exact (cast_error_never r t er s w Hw H).
      * injection H as -> ->. destruct (builtin_errors f B _ _ _ _ _ E2) as [(m & -> & H1 & -> & Hm)|(m & -> & H & Hm)].
        -- left. exists m. split; [reflexivity|]. split; [|exact Hm]. left. congruence.
        -- right. exists m. split; [reflexivity|]. split; [|exact Hm]. destruct H as [H|H]; [left; exact H|apply HA; exact H].
    + injection H as -> ->. destruct (smap2_error ctx tes _ er s Hall E1) as (te & a & P1 & P2 & P3 & P4).
      rewrite Forall_forall in IH. destruct (IH te P1 a ctx er s P3 (tame_in te tes Ht2 P1) P4) as [(m & -> & H & Hm)|(m & -> & H & Hm)].
      * left. exists m. split; [reflexivity|]. split; [|exact Hm]. right. eapply sgiven_heads; eassumption.
      * right. exists m. split; [reflexivity|]. split; [|exact Hm]. destruct H as [H|H]; [left; exact H|]. right. apply in_or_app. apply in_app_or in H as [H|H]; [left; exact H|].
        right. eapply sgiven_spans; eassumption.
Qed.
Lemma selab_tame items : forall G tis, selab_items O SO env G items = SOk tis -> Forall (fun ti => tame O (snd ti)) tis.
Proof.
  induction items as [|[name e] items IH]; intros G tis H; cbn [selab_items] in H; [injection H as <-; constructor|].
  destruct (elab env G (erase_expr e) None) as [[te c]|er] eqn:E; [|discriminate]. destruct (assoc_str name G); [discriminate|].
  destruct (selab_items O SO env _ items) as [tis'|er s|p] eqn:E'; try discriminate. injection H as <-. constructor; [|eapply IH; exact E'].
  cbn [snd]. eapply elab_none_tame; exact E.
Qed.
Lemma srun_items_error items : forall tis ctx er s, Forall2 (fun it ti => fst it = fst ti /\ elaborates (snd ti) (snd it)) items tis ->
  Forall (fun ti => tame O (snd ti)) tis ->
  srun_items O SO seed ctx tis items = SErr er s ->
  exists pre name e post, items = pre ++ (name, e) :: post /\
    ((exists m, er = FEval m /\ In (txt "concat", s) (call_heads e) /\ eval_text O m) \/
     (exists m, er = FType m /\ In s (call_site :: ctx_spans ctx ++ places (pre ++ [(name, e)])) /\ type_text O SO m)).
Proof.
  induction items as [|[name e] items IH]; intros tis ctx er s H Ht Hr; inversion H as [|? [name' te] ? ? [H1 H2] H3]; subst tis; cbn [srun_items] in Hr; [discriminate|].
  inversion Ht as [|? ? Ht1 Ht2]; subst.
  cbn [snd] in H2, Ht1. destruct (srun O SO seed ctx te e) as [w|er' s'|p] eqn:E; try discriminate; cbn [sbind] in Hr.
  - destruct (srun_items O SO seed _ l' items) as [bs'|er' s'|p] eqn:E'; try discriminate. injection Hr as -> ->.
    destruct (IH l' _ er s H3 Ht2 E') as (pre & name2 & e2 & post & -> & Hc). exists ((name, e) :: pre), name2, e2, post. split; [reflexivity|].
    destruct Hc as [Hc|(m & -> & Hc & Hm)]; [left; exact Hc|]. right. exists m. split; [reflexivity|]. split; [|exact Hm]. destruct Hc as [Hc|Hc]; [left; exact Hc|].
    cbn [flat_map snd] in Hc. unfold places in *. cbn [app flat_map snd]. rewrite <- app_assoc in Hc. apply in_app_or in Hc as [Hc|Hc].
    + apply (srun_from te e ctx w H2 E) in Hc as [Hc|Hc]; [left; exact Hc|]. right. rewrite !in_app_iff in *. tauto.
    + right. rewrite !in_app_iff in *. tauto.
  - injection Hr as -> ->. exists [], name, e, items. split; [reflexivity|]. unfold places. cbn. rewrite app_nil_r. eapply srun_error; eassumption.
Qed.
Lemma elab_none_refusal G e er : elab env G (erase_expr e) None = inr er ->
  exists id f head args raw, e = SECall id f head args raw /\
    ((get_func_variants env f = None /\ refusal O env e er = FUndefined f) \/
     (exists fs, get_func_variants env f = Some fs /\
        refusal O env e er = FSignature f (FormatString.join (txt " | ") (map signature fs)) (expr_display O (erase_expr e)))).
Proof.
  destruct e as [id v|id f head args raw]; cbn [erase_expr elab].
  - rewrite cost_same. discriminate.
  - intros H. exists id, f, head, args, raw. split; [reflexivity|]. destruct (get_func_variants env f) as [fs|] eqn:Ef; [|injection H as <-; left; auto].
    right. exists fs. split; [reflexivity|]. destruct (best _) as [[[c g] tes]|]; [discriminate|]. injection H as <-.
    unfold refusal. rewrite Ef. reflexivity.
Qed.
Lemma selab_error items : forall G er s, selab_items O SO env G items = SErr er s ->
  exists pre name e post, items = pre ++ (name, e) :: post /\
    ((er = FRedefined name /\ (In name (map fst pre) \/ In name (map fst G)) /\ s = expr_span SO e) \/
     (exists id f args raw, e = SECall id f s args raw /\
       ((get_func_variants env f = None /\ er = FUndefined f) \/
        (exists fs, get_func_variants env f = Some fs /\
           er = FSignature f (FormatString.join (txt " | ") (map signature fs)) (expr_display O (erase_expr e)))))).
Proof.
  induction items as [|[name e] items IH]; intros G er s H; cbn [selab_items] in H; [discriminate|].
  destruct (elab env G (erase_expr e) None) as [[te c]|er'] eqn:E.
  - destruct (assoc_str name G) eqn:Eg.
    + injection H as <- <-. exists [], name, e, items. split; [reflexivity|]. left. split; [reflexivity|]. split; [|reflexivity].
      right. apply assoc_str_In. rewrite Eg. discriminate.
    + destruct (selab_items O SO env _ items) as [tis'|er' s'|p] eqn:E'; try discriminate. injection H as -> ->.
      destruct (IH _ er s E') as (pre & name2 & e2 & post & -> & Hc). exists ((name, e) :: pre), name2, e2, post. split; [reflexivity|].
      destruct Hc as [(-> & Hc & ->)|Hc]; [left|right; exact Hc]. cbn in *. tauto.
  - injection H as <- <-. exists [], name, e, items. split; [reflexivity|]. right.
    destruct (elab_none_refusal G e er' E) as (id & f & head & args & raw & -> & Hc). exists id, f, args, raw. auto.
Qed.
Lemma expr_span_whole e : whole_place SO e (expr_span SO e).
Proof.
  destruct e as [id v|id f s args raw]; [|constructor]. cbn [expr_span]. unfold value_span. destruct (sto_tokens v) as [|a r] eqn:E; [constructor; exact E|].
  destruct r as [|b r]; [cbn; eapply wp_token; exact E|]. assert (Hl : b :: r = removelast (b :: r) ++ [last (b :: r) a]) by (apply app_removelast_last; discriminate).
  cbn [stream_span]. rewrite Hl in E. destruct (join SO (span_of a) (span_of (last (b :: r) a))) as [s|] eqn:Ej; [eapply wp_joined|eapply wp_first]; eassumption.
Qed.
Lemma whole_expr_span e s : whole_place SO e s -> s = expr_span SO e.
Proof.
  assert (G : forall a mid b, stream_span SO (a :: mid ++ [b]) = match join SO (span_of a) (span_of b) with Some s => s | None => span_of a end).
  { intros a mid b. assert (Hl : last (mid ++ [b]) a = b) by apply last_last. destruct (mid ++ [b]) as [|c r] eqn:E; [destruct mid; discriminate|]. cbn [stream_span]. rewrite Hl. reflexivity. }
  intros [id f p args raw|id v E|id v t E|id v a mid b p E Ej|id v a mid b E Ej]; cbn [expr_span]; unfold value_span; rewrite ?E, ?G, ?Ej; reflexivity.
Qed.
Lemma smake_substitutions_report items er s : NoDup (item_ids (erase_spec items)) ->
  smake_substitutions O SO env items = SErr er s -> error_report O SO env items er s.
Proof.
  intros Hnd H. rewrite smake_substitutions_spec in H by exact Hnd. unfold sbindings in H.
  destruct (selab_items O SO env [] items) as [tis|er' s'|p] eqn:E; try discriminate; cbn [sbind] in H.
  - destruct (srun_items_error items tis [] er s (selab_elaborates items [] tis E) (selab_tame items [] tis E) H) as (pre & name & e & post & -> & Hc).
    exists pre, name, e, post. split; [reflexivity|]. destruct Hc as [(m & -> & Hc)|(m & -> & Hc)]; exact Hc.
  - injection H as -> ->. destruct (selab_error items [] er s E) as (pre & name & e & post & -> & Hc). exists pre, name, e, post. split; [reflexivity|].
    destruct Hc as [(-> & [Hc|[]] & ->)|(id & f & args & raw & -> & [[Hf ->]|(fs & Hf & ->)])].
    + split; [reflexivity|]. split; [exact Hc|apply expr_span_whole].
    + split; [exists id, args, raw; reflexivity|exact Hf].
    + split; [exists id, args, raw; reflexivity|]. split; [reflexivity|]. exists fs. auto.
Qed.
Lemma smake_substitutions_error items er s : NoDup (item_ids (erase_spec items)) ->
  smake_substitutions O SO env items = SErr er s -> error_place SO items (class er) s.
Proof.
  intros Hnd H. destruct (smake_substitutions_report items er s Hnd H) as (pre & name & e & post & -> & Hc). exists pre, name, e, post. split; [reflexivity|].
  destruct er; cbn [class]; try contradiction.
  - exact (proj1 Hc).
  - exact (proj1 Hc).
  - destruct Hc as (-> & H1 & H2). auto.
  - exact (proj1 Hc).
  - exact (proj1 Hc).
Qed.

(** ** The bindings as substitutions *)
Lemma bindings_aliases bs : same_aliases (fun x => assoc_str x (erase_bindings bs)) (fun x => option_map sto_tokens (assoc_str x bs)).
Proof.
  intros x. unfold SpecSubst.tokens_of. rewrite assoc_erase. destruct (assoc_str x bs) as [v|]; [|reflexivity]. cbn. f_equal. destruct v; reflexivity.
Qed.
End Erase.

Lemma span_source_in f src : In (f_name f, f_arg_types f, src) span_table <-> span_source f = Some src.
Proof.
  unfold span_source. destruct (find _ span_table) as [[[n ts] src']|] eqn:E; cbn [option_map snd].
  - apply find_some in E as [E1 E2]. cbn [fst snd] in E2. apply andb_true_iff in E2 as [E2 E3]. apply str_eqb_eq in E2. apply tys_eqb_eq in E3. subst n ts. split.
    + intros H. f_equal. eapply in_functional; [exact span_table_functional|exact E1|exact H].
    + intros H. injection H as <-. exact E1.
  - split; [|discriminate]. intros H. apply (find_none _ _ E) in H. cbn [fst snd] in H. rewrite str_eqb_refl in H.
    rewrite (proj2 (tys_eqb_eq _ _) eq_refl) in H. discriminate.
Qed.
Lemma function_spans O SO seed n name fs f src : spanless O SO ->
  get_func_variants (new_initialized O seed n) name = Some fs -> In f fs ->
  (In (f_name f, f_arg_types f, src) span_table <-> span_source f = Some src) /\
  (span_source f <> None) /\
  (span_source f = Some src -> forall seed at_ vs r, simpl_of O SO f seed at_ vs = SOk r -> value_spans r = source_spans SO src at_ vs).
Proof.
  intros L Hf Hin. destruct (builtin_variants O seed n name fs f Hf Hin) as [B _]. split; [apply span_source_in|].
  destruct (builtin_sources O SO f L B) as (src' & H1 & H2). apply span_source_in in H1. split; [rewrite H1; discriminate|].
  rewrite H1. intros H. injection H as <-. exact H2.
Qed.
