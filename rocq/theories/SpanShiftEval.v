(** Moving spans through substitution, casts, functions, resolution and evaluation. *)
From Coq Require Import String.
From Verif Require Import Base Token Types Values Ast Env Resolve Eval FormatString StreamWalker Failures
  SpanTokens SpanWalker SpanValues SpanEval SpanItem SpanParse SpecSpanShift.
Open Scope list_scope.

Section Shift.
Context (g : span -> span).
Notation shift := (shift g).
Notation shift1 := (shift1 g).
Notation shift_value := (shift_value g).
Notation shift_expr := (shift_expr g).

(** A result moved. *)
Definition rmap {A B} (f : A -> B) (r : sres A) : sres B :=
  match r with SOk a => SOk (f a) | SErr e s => SErr e (g s) | SPanic p => SPanic p end.
Lemma rbind {A B A' B'} (f : A -> A') (h : B -> B') x x' k k' :
  x' = rmap f x -> (forall a, k' (f a) = rmap h (k a)) -> sbind x' k' = rmap h (sbind x k).
Proof. intros -> H. destruct x; cbn; auto. Qed.

Lemma erase_shift1 : forall t, erase (shift1 t) = erase t.
Proof.
  induction t as [x s|c j s|l s|d ts s IH] using stt_ind'; try reflexivity. cbn. f_equal. rewrite map_map.
  induction IH; cbn; [reflexivity|]. f_equal; assumption.
Qed.
Lemma erase_shift ts : map erase (shift ts) = map erase ts.
Proof. unfold SpecSpanShift.shift. rewrite map_map. apply map_ext, erase_shift1. Qed.
Lemma span_of_shift t : span_of (shift1 t) = g (span_of t).
Proof. destruct t; reflexivity. Qed.
Lemma shift_app a b : shift (a ++ b) = shift a ++ shift b.
Proof. apply map_app. Qed.
Lemma shift_length a : List.length (shift a) = List.length a.
Proof. apply map_length. Qed.
Lemma nth_shift i ts : nth_error (shift ts) i = option_map shift1 (nth_error ts i).
Proof. apply nth_error_map. Qed.
Lemma shift_concat l : shift (List.concat l) = List.concat (map shift l).
Proof. apply concat_map. Qed.
Lemma shift_single s : shift_delims g (single s) = single (g s).
Proof. reflexivity. Qed.

(** ** substitution/stream_visitor.rs, substitute_idents.rs *)
Definition shift_cursor (c : scursor) : scursor := (fst c, shift (snd c)).
Definition shift_ctx : sctx -> sctx := map shift_cursor.
Definition shift_action (a : saction) : saction := match a with SContinue => SContinue | SReplace ts => SReplace (shift ts) end.
Definition shift_pstate (st : spstate) : spstate := option_map (fun x => (fst x, g (snd x))) st.

Lemma splice_shift i new ts : splice i (shift new) (shift ts) = shift (splice i new ts).
Proof. unfold splice, SpecSpanShift.shift. rewrite firstn_map, skipn_map, !map_app. reflexivity. Qed.
Lemma replace_shift c new : sreplace_current_token (shift_ctx c) (shift new) = shift_ctx (sreplace_current_token c new).
Proof.
  destruct c as [|[i ts] rest]; [reflexivity|]. cbn [shift_ctx map shift_cursor fst snd sreplace_current_token]. rewrite splice_shift, !shift_length. reflexivity.
Qed.
Lemma fold_shift a p i : sfold_group (shift a) (shift p) i = rmap shift (sfold_group a p i).
Proof.
  unfold sfold_group. rewrite nth_shift. destruct (nth_error p i) as [[x s|c j s|l s|d ts s]|]; try reflexivity.
  cbn [option_map SpecSpanShift.shift1 rmap]. rewrite <- splice_shift. reflexivity.
Qed.
Lemma pop_shift c : spop_fold (shift_ctx c) = rmap shift_ctx (spop_fold c).
Proof.
  destruct c as [|[i ts] [|[j p] rest]]; try reflexivity. cbn [shift_ctx map shift_cursor fst snd spop_fold].
  apply (rbind shift); [apply fold_shift|]. reflexivity.
Qed.
Lemma advance_shift c : sadvance_current_group (shift_ctx c) = shift_ctx (sadvance_current_group c).
Proof. destruct c as [|[i ts] rest]; [reflexivity|]. cbn [shift_ctx map shift_cursor fst snd sadvance_current_group]. rewrite shift_length. reflexivity. Qed.
Lemma current_shift c : scurrent_stream (shift_ctx c) = rmap shift (scurrent_stream c).
Proof.
  destruct c as [|[i ts] rest]; [reflexivity|]. cbn [shift_ctx map shift_cursor fst snd scurrent_stream].
  assert (H : forall acc, fold_left (fun acc f => let? a := acc in sfold_group a (snd f) (fst f)) (map shift_cursor rest) (rmap shift acc) =
    rmap shift (fold_left (fun acc f => let? a := acc in sfold_group a (snd f) (fst f)) rest acc)).
  { induction rest as [|f rest IH]; intros acc; [reflexivity|]. cbn [map fold_left]. rewrite <- IH. f_equal.
    apply (rbind shift); [reflexivity|]. intros a. apply fold_shift. }
  apply (H (SOk ts)).
Qed.

Section Subst.
Context (O : oracles) (lookup : str -> option value) (salias salias' : str -> option (list stt)).
Context (Ha : forall x, salias' x = option_map shift (salias x)).
Context {N : Type} (fN : N -> N) (parse : list stt -> option N) (why : list stt -> str).
Context (Hp : forall ts, parse (shift ts) = option_map fN (parse ts)) (Hw : forall ts, why (shift ts) = why ts).

Lemma ident_shift st x s : ssubst_ident O salias' (shift_pstate st) x (g s) =
  (shift_action (fst (ssubst_ident O salias st x s)), shift_pstate (snd (ssubst_ident O salias st x s))).
Proof. unfold ssubst_ident. rewrite Ha. destruct (salias x) as [ts|]; cbn; [rewrite erase_shift|]; reflexivity. Qed.
Lemma literal_shift st l s : ssubst_literal O lookup (shift_pstate st) l (g s) =
  (shift_action (fst (ssubst_literal O lookup st l s)), shift_pstate (snd (ssubst_literal O lookup st l s))).
Proof. unfold ssubst_literal. destruct (parse_lit_str O [TLit l]) as [[v p]|]; reflexivity. Qed.
Lemma after_shift st c : ssubst_after parse why (shift_pstate st) (shift_ctx c) = rmap shift_pstate (ssubst_after parse why st c).
Proof.
  unfold ssubst_after. apply (rbind shift); [apply current_shift|]. intros ts. rewrite Hp, Hw.
  destruct (parse ts); [reflexivity|]. destruct st as [[[x r] s]|]; reflexivity.
Qed.
Definition shift_run (r : spstate * sctx) := (shift_pstate (fst r), shift_ctx (snd r)).
Lemma action_shift st c a : sapply_action parse why (shift_pstate st) (shift_ctx c) (shift_action a) =
  rmap shift_run (sapply_action parse why st c a).
Proof.
  destruct a as [|[|t ts]]; cbn [shift_action sapply_action].
  - rewrite advance_shift. reflexivity.
  - change (SpecSpanShift.shift g []) with (@nil stt). cbn [sapply_action]. change (@nil stt) with (shift []) at 1 2. rewrite replace_shift.
    apply (rbind shift_pstate); [apply after_shift|]. reflexivity.
  - change (SpecSpanShift.shift g (t :: ts)) with (shift1 t :: shift ts). cbn [sapply_action]. change (shift1 t :: shift ts) with (shift (t :: ts)).
    rewrite replace_shift, advance_shift. apply (rbind shift_pstate); [apply after_shift|]. reflexivity.
Qed.
Definition shift_step (r : spstate * sctx + list stt) := match r with inl x => inl (shift_run x) | inr ts => inr (shift ts) end.
Lemma step_shift st c : swalk_step O lookup salias' parse why (shift_pstate st) (shift_ctx c) =
  rmap shift_step (swalk_step O lookup salias parse why st c).
Proof.
  destruct c as [|[i ts] rest]; [reflexivity|]. unfold swalk_step. cbn [shift_ctx map shift_cursor fst snd].
  change (map shift_cursor rest) with (shift_ctx rest). change ((i, shift ts) :: shift_ctx rest) with (shift_ctx ((i, ts) :: rest)).
  rewrite nth_shift. destruct (nth_error ts i) as [[x s|c j s|l s|d ts' s]|]; cbn [option_map SpecSpanShift.shift1].
  - rewrite ident_shift. destruct (ssubst_ident O salias st x s) as [a st']. cbn [fst snd].
    apply (rbind shift_run); [exact (action_shift st' ((i, ts) :: rest) a)|]. reflexivity.
  - apply (rbind shift_run); [exact (action_shift st ((i, ts) :: rest) SContinue)|]. reflexivity.
  - rewrite literal_shift. destruct (ssubst_literal O lookup st l s) as [a st']. cbn [fst snd].
    apply (rbind shift_run); [exact (action_shift st' ((i, ts) :: rest) a)|]. reflexivity.
  - reflexivity.
  - destruct rest as [|f rest]; [reflexivity|]. cbn [shift_ctx map]. change (shift_cursor f :: map shift_cursor rest) with (shift_ctx (f :: rest)).
    apply (rbind shift_ctx); [exact (pop_shift ((i, ts) :: f :: rest))|]. intros c. cbn. rewrite advance_shift. reflexivity.
Qed.
Lemma walk_shift fuel : forall st c, swalk_from O lookup salias' parse why fuel (shift_pstate st) (shift_ctx c) =
  rmap shift (swalk_from O lookup salias parse why fuel st c).
Proof.
  induction fuel as [|fuel IH]; intros st c; [reflexivity|]. cbn [swalk_from].
  apply (rbind shift_step); [apply step_shift|]. intros [[st' c']|ts]; [apply IH|reflexivity].
Qed.
Lemma substitute_shift ts : ssubstitute_idents O lookup salias' parse why (shift ts) =
  rmap fN (ssubstitute_idents O lookup salias parse why ts).
Proof.
  unfold ssubstitute_idents. rewrite erase_shift. apply (rbind shift); [apply (walk_shift _ None [(0, ts)])|].
  intros l. rewrite Hp. destruct (parse l); reflexivity.
Qed.
End Subst.

(** ** ast/value.rs *)
Lemma erase_value_shift v : erase_value (shift_value v) = erase_value v.
Proof. destruct v; cbn; rewrite ?erase_shift; reflexivity. Qed.
Lemma type_shift v : stype_of (shift_value v) = stype_of v.
Proof. destruct v; reflexivity. Qed.
Lemma tokens_shift v : sto_tokens (shift_value v) = shift (sto_tokens v).
Proof. destruct v; reflexivity. Qed.

Context (O : oracles) (SO : soracles) (C : g call_site = call_site) (MO : moves_oracles g SO).

Lemma last_shift r t : last (shift r) (shift1 t) = shift1 (last r t).
Proof. induction r as [|x [|y r] IH]; try reflexivity. exact IH. Qed.
Lemma stream_span_shift ts : stream_span SO (shift ts) = g (stream_span SO ts).
Proof.
  destruct ts as [|t [|u r]]; [symmetry; exact C|apply span_of_shift|]. cbn [SpecSpanShift.shift map stream_span].
  change (shift1 u :: map shift1 r) with (shift (u :: r)). rewrite last_shift, !span_of_shift. apply (moves_joined _ _ MO).
Qed.
Lemma value_span_shift v : value_span SO (shift_value v) = g (value_span SO v).
Proof. unfold value_span. rewrite tokens_shift. apply stream_span_shift. Qed.
Lemma or_error_shift {A B} e s (x : option A) (f : A -> svalue) (f' : B -> svalue) (h : A -> B) : (forall a, f' (h a) = shift_value (f a)) ->
  or_error_at e (g s) (option_map h x) f' = rmap shift_value (or_error_at e s x f).
Proof. intros H. destruct x; cbn; [rewrite H|]; reflexivity. Qed.
Lemma lit_as_ident_shift v : sfrom_lit_str_as_ident O SO v = rmap shift_value (sfrom_lit_str_as_ident O SO v).
Proof. unfold sfrom_lit_str_as_ident. destruct (parse_str_ident O v); cbn; rewrite C; reflexivity. Qed.
Lemma cast_shift v to : stry_cast O SO (shift_value v) to = rmap shift_value (stry_cast O SO v to).
Proof.
  unfold stry_cast. rewrite type_shift, tokens_shift, (moves_error_at _ _ MO), (moves_error_text _ _ MO), value_span_shift.
  destruct (ty_eqb _ _); [reflexivity|].
  assert (Hid : forall v0 : svalue, v0 = v -> match sparse_lit_str SO (shift (sto_tokens v0)) with
      | Some (x, _, _) => sfrom_lit_str_as_ident O SO x
      | None => or_error_at (cast_error (stype_of v0) to (syn_error_text SO to (sto_tokens v0))) (g (syn_error_at SO to (sto_tokens v0)))
                  (sparse_ident SO (shift (sto_tokens v0))) (fun i => SVIdent (fst i) (snd i))
      end = rmap shift_value (match sparse_lit_str SO (sto_tokens v0) with
      | Some (x, _, _) => sfrom_lit_str_as_ident O SO x
      | None => or_error_at (cast_error (stype_of v0) to (syn_error_text SO to (sto_tokens v0))) (syn_error_at SO to (sto_tokens v0))
                  (sparse_ident SO (sto_tokens v0)) (fun i => SVIdent (fst i) (snd i))
      end)).
  { intros v0 _. rewrite (moves_lit_str _ _ MO), (moves_ident _ _ MO).
    destruct (sparse_lit_str SO (sto_tokens v0)) as [[[x p] s]|]; cbn [option_map shift_lit fst snd]; [apply lit_as_ident_shift|].
    apply or_error_shift. reflexivity. }
  assert (Hstr : forall v0 : svalue, v0 = v -> match sparse_ident SO (shift (sto_tokens v0)) with
      | Some (x, s) => SOk (SVLitStr x [] s)
      | None => or_error_at (cast_error (stype_of v0) to (syn_error_text SO to (sto_tokens v0))) (g (syn_error_at SO to (sto_tokens v0)))
                  (sparse_lit_str SO (shift (sto_tokens v0))) (fun '(x, p, s) => SVLitStr x p s)
      end = rmap shift_value (match sparse_ident SO (sto_tokens v0) with
      | Some (x, s) => SOk (SVLitStr x [] s)
      | None => or_error_at (cast_error (stype_of v0) to (syn_error_text SO to (sto_tokens v0))) (syn_error_at SO to (sto_tokens v0))
                  (sparse_lit_str SO (sto_tokens v0)) (fun '(x, p, s) => SVLitStr x p s)
      end)).
  { intros v0 _. rewrite (moves_lit_str _ _ MO), (moves_ident _ _ MO).
    destruct (sparse_ident SO (sto_tokens v0)) as [[x s]|]; [reflexivity|]. apply or_error_shift. intros [[x p] s]. reflexivity. }
  specialize (Hid v eq_refl). specialize (Hstr v eq_refl).
  assert (Hpath : or_error_at (cast_error (stype_of v) to (syn_error_text SO to (sto_tokens v))) (g (syn_error_at SO to (sto_tokens v)))
     (sparse_path SO (shift (sto_tokens v))) SVPath = rmap shift_value (or_error_at (cast_error (stype_of v) to (syn_error_text SO to (sto_tokens v)))
     (syn_error_at SO to (sto_tokens v)) (sparse_path SO (sto_tokens v)) SVPath))
    by (rewrite (moves_path _ _ MO); apply or_error_shift; reflexivity).
  assert (Htype : or_error_at (cast_error (stype_of v) to (syn_error_text SO to (sto_tokens v))) (g (syn_error_at SO to (sto_tokens v)))
     (sparse_type SO (shift (sto_tokens v))) SVType = rmap shift_value (or_error_at (cast_error (stype_of v) to (syn_error_text SO to (sto_tokens v)))
     (syn_error_at SO to (sto_tokens v)) (sparse_type SO (sto_tokens v)) SVType))
    by (rewrite (moves_type _ _ MO); apply or_error_shift; reflexivity).
  assert (Hexpr : or_error_at (cast_error (stype_of v) to (syn_error_text SO to (sto_tokens v))) (g (syn_error_at SO to (sto_tokens v)))
     (sparse_expr SO (shift (sto_tokens v))) SVExpr = rmap shift_value (or_error_at (cast_error (stype_of v) to (syn_error_text SO to (sto_tokens v)))
     (syn_error_at SO to (sto_tokens v)) (sparse_expr SO (sto_tokens v)) SVExpr))
    by (rewrite (moves_expr _ _ MO); apply or_error_shift; reflexivity).
  assert (Hint : or_error_at (cast_error (stype_of v) to (syn_error_text SO to (sto_tokens v))) (g (syn_error_at SO to (sto_tokens v)))
     (sparse_lit_int SO (shift (sto_tokens v))) (fun '(d, r, s) => SVLitInt d r s) = rmap shift_value (or_error_at (cast_error (stype_of v) to (syn_error_text SO to (sto_tokens v)))
     (syn_error_at SO to (sto_tokens v)) (sparse_lit_int SO (sto_tokens v)) (fun '(d, r, s) => SVLitInt d r s)))
    by (rewrite (moves_lit_int _ _ MO); apply or_error_shift; intros [[? ?] ?]; reflexivity).
  destruct v, to; cbn [SpecSpanShift.shift_value rmap]; try first [exact Hid | exact Hstr | exact Hpath | exact Htype | exact Hexpr | exact Hint | apply lit_as_ident_shift | reflexivity | (rewrite C; reflexivity)].
Qed.

(** ** core/environment/init_funcs.rs *)
Definition moved_impl (f : simpl_t) : Prop := forall seed at_ vs, f seed (g at_) (map shift_value vs) = rmap shift_value (f seed at_ vs).
Lemma new_ident_shift x s : snew_ident O x (g s) = rmap shift_value (snew_ident O x s).
Proof. unfold snew_ident. destruct (ident_ok O x); reflexivity. Qed.
Lemma collect_shift {A} (h : svalue -> option A) vs : (forall v, h (shift_value v) = h v) -> scollect h (map shift_value vs) = scollect h vs.
Proof. intros H. induction vs as [|v vs IH]; [reflexivity|]. cbn. rewrite H, IH. reflexivity. Qed.
Lemma collect_tokens_shift vs : scollect (fun v => match v with SVTokens ts => Some ts | _ => None end) (map shift_value vs) =
  option_map (map shift) (scollect (fun v => match v with SVTokens ts => Some ts | _ => None end) vs).
Proof.
  induction vs as [|v vs IH]; [reflexivity|]. cbn. rewrite IH. destruct v; try reflexivity. cbn.
  destruct (scollect _ vs); reflexivity.
Qed.
Ltac one := intros seed at_ [|v [|w vs]]; try (destruct v); try reflexivity; cbn -[snew_ident]; rewrite ?erase_shift; try reflexivity; try apply new_ident_shift.

Lemma table_shift : Forall (fun row => Forall (fun o => moved_impl (snd o)) (snd row)) (stable O SO).
Proof.
  repeat match goal with
         | |- Forall _ (stable _ _) => unfold stable, sstr_funcs
         | |- Forall _ (_ :: _) => apply Forall_cons; cbn [fst snd]
         | |- Forall _ [] => apply Forall_nil
         end; try solve [one | intros seed at_ [|v [|w vs]]; try (destruct v); try reflexivity; apply (cast_shift (SVTokens _))].
  - intros seed at_ vs. unfold simpl_concat_idents. rewrite collect_shift by (intros []; reflexivity).
    destruct (scollect _ vs); [apply new_ident_shift|reflexivity].
  - intros seed at_ [|first rest]; [reflexivity|]. unfold simpl_concat_ident_tokens. cbn [map]. rewrite collect_shift by (intros []; cbn; rewrite ?erase_shift; reflexivity).
    destruct (scollect _ rest); [|reflexivity]. rewrite tokens_shift, erase_shift. destruct (parse_str_ident O _).
    + cbn. rewrite C. reflexivity.
    + assert (E : map (fun v => to_string O (map erase (sto_tokens v))) (map shift_value rest) = map (fun v => to_string O (map erase (sto_tokens v))) rest)
        by (rewrite map_map; apply map_ext; intros v; rewrite tokens_shift, erase_shift; reflexivity).
      cbn [rmap]. rewrite E. reflexivity.
  - intros seed at_ vs. unfold simpl_concat_strs. rewrite collect_shift by (intros []; reflexivity). destruct (scollect _ vs); reflexivity.
  - intros seed at_ vs. unfold simpl_concat_ints. rewrite collect_shift by (intros []; reflexivity). destruct (scollect _ vs); [|reflexivity].
    destruct (lit_int_new O _) as [[d r]|]; reflexivity.
  - intros seed at_ vs. unfold simpl_concat_tokens. rewrite collect_tokens_shift. destruct (scollect _ vs); [|reflexivity].
    cbn. rewrite shift_concat. reflexivity.
Qed.
Lemma find_shift ts l h : Forall (fun o => moved_impl (snd o)) l -> find_overload ts l = Some h -> moved_impl h.
Proof.
  induction 1 as [|[ts' h'] r Ho Hl IH]; [discriminate|]. cbn [find_overload]. destruct (tys_eqb _ _); [|exact IH].
  intros E. injection E as <-. exact Ho.
Qed.
Lemma impl_shift f : moved_impl (simpl_of O SO f).
Proof.
  intros seed at_ vs. unfold simpl_of. destruct (assoc_str (f_name f) (stable O SO)) as [l|] eqn:E; [|reflexivity].
  assert (Hl : Forall (fun o => moved_impl (snd o)) l).
  { assert (T := table_shift). revert E T. generalize (stable O SO) as tbl. induction tbl as [|[y l'] r IH]; [discriminate|].
    cbn [assoc_str]. intros E T. inversion T as [|? ? T1 T2]; subst. destruct (str_eqb _ _); [injection E as <-; exact T1|exact (IH E T2)]. }
  destruct (find_overload _ l) as [h|] eqn:F; [|reflexivity]. exact (find_shift _ _ _ Hl F seed at_ vs).
Qed.

(** ** eval/*.rs *)
Lemma assoc_str_shift {A B} (f : A -> B) x l : assoc_str x (map (fun b => (fst b, f (snd b))) l) = option_map f (assoc_str x l).
Proof. induction l as [|[y a] l IH]; [reflexivity|]. cbn. destruct (str_eqb _ _); [reflexivity|exact IH]. Qed.
Lemma assoc_N_shift {A B} (f : A -> B) x l : assoc_N x (map (fun b => (fst b, f (snd b))) l) = option_map f (assoc_N x l).
Proof. induction l as [|[y a] l IH]; [reflexivity|]. cbn. destruct (N.eqb _ _); [reflexivity|exact IH]. Qed.
Definition shift_bindings (l : list (str * svalue)) : list (str * svalue) := map (fun b => (fst b, shift_value (snd b))) l.
Definition shift_nodes (l : list (N * sexpr)) : list (N * sexpr) := map (fun b => (fst b, shift_expr (snd b))) l.

Lemma erase_expr_shift : forall e, erase_expr (shift_expr e) = erase_expr e.
Proof.
  induction e as [id v|id x head args raw IH] using sexpr_ind'; cbn; [rewrite erase_value_shift; reflexivity|].
  f_equal; [|destruct raw as [[r ts]|]; cbn [option_map fst snd]; rewrite ?erase_shift; reflexivity].
  rewrite map_map. induction IH; cbn; [reflexivity|]. f_equal; assumption.
Qed.
Lemma flat_map_shift {A B A' B'} (f : A -> list B) (f' : A' -> list B') (h : A -> A') (k : B -> B') l :
  Forall (fun a => f' (h a) = map k (f a)) l -> flat_map f' (map h l) = map k (flat_map f l).
Proof. induction 1 as [|a l H _ IH]; [reflexivity|]. cbn. rewrite map_app, H, IH. reflexivity. Qed.
Lemma nodes_shift : forall e, nodes (shift_expr e) = shift_nodes (nodes e).
Proof.
  induction e as [id v|id x head args raw IH] using sexpr_ind'; [reflexivity|]. cbn [SpecSpanShift.shift_expr nodes].
  unfold shift_nodes. cbn [map fst snd]. f_equal. rewrite map_app. f_equal; [|destruct raw as [[r ts]|]; reflexivity].
  apply flat_map_shift. exact IH.
Qed.
Lemma item_nodes_shift l : item_nodes (map (shift_definition g) l) = shift_nodes (item_nodes l).
Proof. apply flat_map_shift. apply Forall_forall. intros i _. apply nodes_shift. Qed.

Lemma mapM_shift {A B A' B'} (f : A -> sres B) (f' : A' -> sres B') (h : A -> A') (k : B -> B') l :
  Forall (fun a => f' (h a) = rmap k (f a)) l -> smapM f' (map h l) = rmap (map k) (smapM f l).
Proof.
  induction 1 as [|a l H _ IH]; [reflexivity|]. cbn [map smapM]. apply (rbind k); [exact H|]. intros b.
  apply (rbind (map k)); [exact IH|]. reflexivity.
Qed.
Lemma mapM_shift_same {A B B'} (f : A -> sres B) (f' : A -> sres B') (k : B -> B') l :
  (forall a, f' a = rmap k (f a)) -> smapM f' l = rmap (map k) (smapM f l).
Proof. intros H. rewrite <- (map_id l) at 1. apply mapM_shift. apply Forall_forall. intros a _. apply H. Qed.

Lemma eval_value_shift meta ctx id v : seval_value O SO meta (shift_bindings ctx) id (shift_value v) =
  rmap shift_value (seval_value O SO meta ctx id v).
Proof.
  unfold seval_value. destruct (assoc_N id (sc_values meta)) as [m|]; [|cbn; rewrite C; reflexivity].
  assert (H : match shift_value v with SVIdent x _ => match assoc_str x (shift_bindings ctx) with Some w => w | None => shift_value v end | _ => shift_value v end =
    shift_value (match v with SVIdent x _ => match assoc_str x ctx with Some w => w | None => v end | _ => v end)).
  { destruct v; try reflexivity. cbn [SpecSpanShift.shift_value]. unfold shift_bindings. rewrite assoc_str_shift. destruct (assoc_str x ctx); reflexivity. }
  rewrite H, cast_shift. destruct (stry_cast O SO _ _); reflexivity.
Qed.
Lemma eval_expr_shift env meta tree fuel : forall ctx e,
  seval_expr O SO env meta (shift_nodes tree) fuel (shift_bindings ctx) (shift_expr e) = rmap shift_value (seval_expr O SO env meta tree fuel ctx e).
Proof.
  induction fuel as [|fuel IH]; intros ctx e; [reflexivity|]. destruct e as [id v|id x head args raw]; cbn [seval_expr SpecSpanShift.shift_expr];
    [apply eval_value_shift|]. destruct (assoc_N id (sc_calls meta)) as [m|]; [|cbn; rewrite C; reflexivity].
  apply (rbind (map shift_value)).
  - apply mapM_shift_same. intros a. unfold shift_nodes. rewrite assoc_N_shift. destruct (assoc_N _ tree); [apply IH|reflexivity].
  - intros vs. apply (rbind shift_value); [apply impl_shift|]. intros v. apply cast_shift.
Qed.
Lemma eval_items_shift env meta tree items : forall ctx,
  seval_items O SO env meta (shift_nodes tree) (shift_bindings ctx) (map (shift_definition g) items) =
  rmap shift_bindings (seval_items O SO env meta tree ctx items).
Proof.
  induction items as [|[name e] items IH]; intros ctx; [reflexivity|]. cbn [map shift_definition fst snd seval_items]. rewrite erase_expr_shift.
  apply (rbind shift_value); [apply eval_expr_shift|]. intros v. apply (rbind shift_bindings); [apply (IH ((name, v) :: ctx))|]. reflexivity.
Qed.

(** ** resolve/*.rs *)
Lemma expr_span_shift e : expr_span SO (shift_expr e) = g (expr_span SO e).
Proof. destruct e; [apply value_span_shift|reflexivity]. Qed.
Lemma failure_shift env sc e er : resolve_failure O env sc (shift_expr e) er = resolve_failure O env sc e er.
Proof.
  unfold resolve_failure. rewrite erase_expr_shift. destruct er; try reflexivity. destruct e; [|reflexivity]. cbn. rewrite erase_value_shift. reflexivity.
Qed.
Lemma resolve_expr_shift env sc e : sresolve_expr O env sc (shift_expr e) = rmap (fun sc => sc) (sresolve_expr O env sc e).
Proof.
  unfold sresolve_expr. rewrite erase_expr_shift. destruct (resolve_expr _ _ _ _) as [sc'|er|p]; try reflexivity. cbn [rmap]. rewrite failure_shift. f_equal.
  destruct er, e; cbn; rewrite ?C; reflexivity.
Qed.
Lemma resolve_item_shift env sc i : sresolve_item O SO env sc (shift_definition g i) = rmap (fun sc => sc) (sresolve_item O SO env sc i).
Proof.
  unfold sresolve_item. cbn [shift_definition fst snd]. apply (rbind (fun sc => sc)); [apply resolve_expr_shift|]. intros sc'.
  rewrite erase_expr_shift. destruct (try_add_name _ _ _); try reflexivity. cbn. rewrite failure_shift, expr_span_shift. reflexivity.
Qed.
Lemma resolve_items_shift env items : forall sc, sresolve_items O SO env sc (map (shift_definition g) items) = rmap (fun sc => sc) (sresolve_items O SO env sc items).
Proof.
  induction items as [|i items IH]; intros sc; [reflexivity|]. cbn [map sresolve_items]. apply (rbind (fun sc => sc)); [apply resolve_item_shift|]. exact IH.
Qed.
Lemma substitutions_shift env items : smake_substitutions O SO env (map (shift_definition g) items) = rmap shift_bindings (smake_substitutions O SO env items).
Proof.
  unfold smake_substitutions. apply (rbind (fun sc => sc)); [apply resolve_items_shift|]. intros sc. rewrite item_nodes_shift.
  apply (eval_items_shift env sc (item_nodes items) items []).
Qed.
End Shift.
