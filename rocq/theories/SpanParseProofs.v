(** Parsing does not depend on spans. *)
From Coq Require Import String.
From Verif Require Import Base BaseFacts Token Types Values Ast Item Interpreter Parse SpecRepro Failures
  SpanTokens SpanWalker SpanValues SpanEval SpanItem SpanParse SpanMacro SpecSpanItem SpecSpanMacro.
Open Scope list_scope.

Definition second {A B C} (f : B -> C) (p : A * B) : A * C := (fst p, f (snd p)).
Definition forget_sum {A B} (f : A -> B) (x : A + messages) : option B :=
  match x with inl a => Some (f a) | inr _ => None end.

Lemma skipn_erase k (ts : list stt) : map erase (skipn k ts) = skipn k (map erase ts).
Proof. symmetry. apply skipn_map. Qed.
Lemma is_some_first {A} (a b : option A) : is_some (first_some a b) = is_some a || is_some b.
Proof. destruct a; reflexivity. Qed.

Section Parse.
Context (P : parsers) (SP : sparsers) (hf : str -> bool) (HS : spanless_parsers P SP).

Definition er_c (c : scandidate) : candidate := let '(v, k, u) := c in (erase_value v, k, is_some u).
Definition er_e (x : sexpr * nat * option syn_message) : expr * nat * bool := let '(e, k, u) := x in (erase_expr e, k, is_some u).
Definition er_best (x : nat * (sexpr * nat * option syn_message)) := (fst x, er_e (snd x)).

Lemma try_parse_erase term ts o : option_map er_c (stry_parse term ts o) = try_parse term (map erase ts) (option_map er_c o).
Proof. destruct o as [[[v k] u]|]; [|reflexivity]. cbn. rewrite skipn_erase. destruct (ends term _); reflexivity. Qed.
Lemma node_candidate_erase (f : list stt -> svalue) g o : (forall ts, erase_value (f ts) = g (map erase ts)) ->
  option_map er_c (snode_candidate f o) = node_candidate g (option_map (erase_node (map erase)) o).
Proof. intros H. destruct o as [[[n k] u]|]; [|reflexivity]. cbn. rewrite H. reflexivity. Qed.
Lemma attempts_erase ts : map (option_map er_c) (sattempts P SP ts) = attempts P (map erase ts).
Proof.
  unfold sattempts, attempts. cbn [map].
  rewrite (node_candidate_erase SVPath VPath), (node_candidate_erase SVType VType), (node_candidate_erase SVExpr VExpr) by reflexivity.
  rewrite (spanless_pre_path _ _ HS), (spanless_pre_type _ _ HS), (spanless_pre_expr _ _ HS).
  f_equal; [|f_equal; [|f_equal; [|f_equal]]].
  - unfold lit_int_candidate, slit_int_candidate. rewrite <- (spanless_pre_lit_int _ _ HS). destruct (spre_lit_int SP ts) as [[[[d r] s] k]|]; reflexivity.
  - unfold lit_str_candidate, slit_str_candidate. rewrite <- (spanless_pre_lit_str _ _ HS). destruct (spre_lit_str SP ts) as [[[[d r] s] k]|]; reflexivity.
  - destruct ts as [|t ts]; [reflexivity|]. cbn. destruct (_ || _); reflexivity.
  - destruct ts as [|[x s|c j s|l s|d l s] ts]; try reflexivity. cbn. destruct (ident_allowed P x); reflexivity.
Qed.
Lemma attempt_erase term ts acc o :
  attempt term (map erase ts) (second (option_map er_best) acc) (option_map er_c o) = second (option_map er_best) (sattempt term ts acc o).
Proof.
  destruct acc as [n best]. unfold attempt, sattempt, second at 1. cbn [fst snd]. rewrite <- try_parse_erase.
  destruct (stry_parse term ts o) as [[[v k] u]|]; [|reflexivity]. cbn [option_map er_c].
  destruct best as [[m [[e j] w]]|]; [|reflexivity]. cbn [option_map er_best fst snd]. destruct (Nat.ltb m _); reflexivity.
Qed.
Lemma until_erase term ts : map erase (suntil term ts) = until term (map erase ts).
Proof. induction ts as [|t ts IH]; [reflexivity|]. cbn. destruct (term (erase t)); [reflexivity|]. cbn. rewrite IH. reflexivity. Qed.
Lemma value_erase term n ts : parse_value P term n (map erase ts) = second er_e (sparse_value P SP term n ts).
Proof.
  unfold parse_value, sparse_value. rewrite <- attempts_erase.
  assert (H : forall l acc, fold_left (attempt term (map erase ts)) (map (option_map er_c) l) (second (option_map er_best) acc) =
    second (option_map er_best) (fold_left (sattempt term ts) l acc)).
  { induction l as [|o l IH]; intros acc; [reflexivity|]. cbn [map fold_left]. rewrite attempt_erase. apply IH. }
  change (n, @None (nat * (expr * nat * bool))) with (second (option_map er_best) (n, None)). rewrite H.
  destruct (fold_left (sattempt term ts) _ _) as [n' [[m r]|]]; [reflexivity|]. unfold second. cbn [fst snd option_map er_e].
  rewrite <- until_erase, map_length. reflexivity.
Qed.

(** ** Recursion *)
Definition er_t (x : tuple sexpr * option syn_message) : tuple expr * bool := (map_tuple erase_expr (fst x), is_some (snd x)).
Definition sim (s : satok) (a : atok) : Prop :=
  a_tok a = erase (s_tok s) /\
  (forall n, a_args a n = second (map erase_expr) (s_args s n)) /\
  (forall n, a_tuple a n = second (forget_sum er_t) (s_tuple s n)) /\
  a_pattern a = forget_sum (fun t => t) (s_pattern s).

Lemma sim_toks l l' : Forall2 sim l l' -> toks l' = map erase (stoks l).
Proof. induction 1 as [|s a l l' H _ IH]; [reflexivity|]. cbn. rewrite (proj1 H). f_equal. exact IH. Qed.
Lemma sim_skipn k l l' : Forall2 sim l l' -> Forall2 sim (skipn k l) (skipn k l').
Proof. intros H. revert k. induction H as [|s a l l' Hs Hl IH]; intros [|k]; cbn; auto. Qed.

Lemma call_erase n l l' : Forall2 sim l l' ->
  parse_call P hf n l' = option_map (second (fun x => (erase_expr (fst x), snd x))) (sparse_call P hf n l).
Proof.
  intros H. destruct H as [|s a l l' Hs H]; [reflexivity|]. destruct s as [st sa1 sa2 sa3], a as [at_ aa1 aa2 aa3].
  destruct Hs as (Hs & _). cbn [a_tok s_tok] in Hs. subst. destruct st as [x s|c j s|l0 s|d g s]; try reflexivity.
  destruct H as [|s' a l l' Hs' H]; [reflexivity|]. destruct s' as [st' sa1' sa2' sa3'], a as [at' aa1' aa2' aa3'].
  destruct Hs' as (Hs' & Ha & _). cbn [a_tok s_tok a_args s_args] in Hs', Ha. subst. destruct st' as [x' s'|c j s'|l0 s'|d g s']; try reflexivity. destruct d; try reflexivity.
  cbn [parse_call sparse_call erase a_args s_args]. destruct (ident_allowed P x && hf x); [|reflexivity]. rewrite Ha. unfold second. destruct (sa1' n) as [n1 args]. reflexivity.
Qed.
Lemma expr_erase n l l' : Forall2 sim l l' -> parse_expr P hf n l' = second er_e (sparse_expr_ P SP hf n l).
Proof.
  intros H. unfold parse_expr, sparse_expr_. rewrite (call_erase _ _ _ H). destruct (sparse_call P hf n l) as [[n' [e k]]|]; [reflexivity|].
  cbn [option_map]. rewrite (sim_toks _ _ H). apply value_erase.
Qed.

Section Terminated.
Context {A B : Type} (f : A -> B) (scope : span) (item : N -> list satok -> N * (A * nat + messages)) (item' : N -> list atok -> N * option (B * nat)).
Context (Hitem : forall n l l', Forall2 sim l l' -> item' n l' = second (forget_sum (fun x => (f (fst x), snd x))) (item n l)).
Lemma terminated_erase l l' : Forall2 sim l l' -> forall skip n,
  parse_terminated item' l' skip n = second (forget_sum (map f)) (sparse_terminated scope item l skip n).
Proof.
  induction 1 as [|s a l l' Hs Hl IH]; intros skip n; [reflexivity|]. cbn [parse_terminated sparse_terminated].
  destruct skip as [[|k]|]; [rewrite (proj1 Hs); destruct (is_comma _); [apply IH|reflexivity]|apply IH|].
  rewrite (Hitem n (s :: l) (a :: l')) by (constructor; assumption). unfold second at 1. destruct (item n (s :: l)) as [n1 [[x k]|e]]; [|reflexivity].
  cbn [fst snd forget_sum]. destruct k as [|k]; [rewrite (proj1 Hs); destruct (is_comma _); [|reflexivity]|]; rewrite IH; unfold second;
    destruct (sparse_terminated scope item l _ n1) as [n2 [r|e]]; reflexivity.
Qed.
End Terminated.

Lemma sim_auntil term l l' : Forall2 sim l l' -> Forall2 sim (sauntil term l) (auntil term l').
Proof. induction 1 as [|s a l l' Hs Hl IH]; [constructor|]. cbn. rewrite (proj1 Hs). destruct (term _); [constructor|constructor; assumption]. Qed.
Lemma sim_length l l' : Forall2 sim l l' -> List.length l' = List.length l.
Proof. induction 1; cbn; congruence. Qed.
Lemma arg_erase n l l' : Forall2 sim l l' ->
  parse_arg P hf n l' = second (forget_sum (fun x => (erase_expr (fst x), snd x))) (sparse_arg P SP hf n l).
Proof.
  intros H. unfold parse_arg, sparse_arg. assert (Hu := sim_auntil is_comma _ _ H). rewrite (expr_erase _ _ _ Hu). unfold second at 1.
  destruct (sparse_expr_ P SP hf n (sauntil is_comma l)) as [n' [[e k] u]]. cbn [fst snd er_e]. unfold second. cbn [fst snd].
  assert (Hk := sim_skipn k _ _ Hu). assert (Hlen := sim_length _ _ Hu).
  replace (skipn k (stoks (sauntil is_comma l))) with (stoks (skipn k (sauntil is_comma l))) by (symmetry; apply skipn_map).
  destruct Hk; destruct u; cbn; try rewrite Hlen; reflexivity.
Qed.
Lemma args_erase scope l l' n : Forall2 sim l l' -> parse_args P hf l' n = second (map erase_expr) (sparse_args P SP hf scope l n).
Proof.
  intros H. unfold parse_args, sparse_args. rewrite (terminated_erase erase_expr scope (sparse_arg P SP hf) _ arg_erase _ _ H). unfold second.
  destruct (sparse_terminated scope (sparse_arg P SP hf) l None n) as [n' [args|e]]; reflexivity.
Qed.

Definition er_tv (x : tuple_value sexpr * option syn_message) : tuple_value expr * bool := (map_tuple_value erase_expr (fst x), is_some (snd x)).
Lemma tuple_value_erase n l l' : Forall2 sim l l' ->
  parse_tuple_value P hf n l' = second (forget_sum (fun x => (er_tv (fst x), snd x))) (sparse_tuple_value P SP hf n l).
Proof.
  intros H. assert (E : match parse_expr P hf n l' with (n', (e, k, u)) => (n', Some (TVValue e, u, k)) end =
    second (forget_sum (fun x => (er_tv (fst x), snd x))) (match sparse_expr_ P SP hf n l with (n', (e, k, u)) => (n', inl (TVValue e, u, k)) end)).
  { rewrite (expr_erase _ _ _ H). unfold second. destruct (sparse_expr_ P SP hf n l) as [n' [[e k] u]]. reflexivity. }
  destruct H as [|s a l l' Hs H]; [exact E|]. destruct s as [st sa1 sa2 sa3], a as [at_ aa1 aa2 aa3]. destruct Hs as (Hs & _ & Ht & _).
  cbn [a_tok s_tok a_tuple s_tuple] in Hs, Ht. subst. destruct st as [x s|c j s|l0 s|d g s]; try exact E. destruct d; try exact E.
  cbn [parse_tuple_value sparse_tuple_value erase a_tuple s_tuple]. rewrite Ht. unfold second. destruct (sa2 n) as [n' [[t u]|e]]; reflexivity.
Qed.
Lemma unexpected_erase {A B} (f : A -> B) (l : list (A * option syn_message)) :
  any_unexpected (map (fun x => (f (fst x), is_some (snd x))) l) = (map f (fst (first_unexpected l)), is_some (snd (first_unexpected l))).
Proof.
  unfold any_unexpected, first_unexpected. cbn [fst snd]. f_equal; [rewrite !map_map; reflexivity|].
  induction l as [|[a u] l IH]; [reflexivity|]. cbn. rewrite is_some_first, IH. reflexivity.
Qed.
Lemma tuple_erase scope l l' n : Forall2 sim l l' -> parse_tuple P hf l' n = second (forget_sum er_t) (sparse_tuple P SP hf scope l n).
Proof.
  intros H. unfold parse_tuple, sparse_tuple. rewrite (terminated_erase er_tv scope (sparse_tuple_value P SP hf) _ tuple_value_erase _ _ H). unfold second.
  destruct (sparse_terminated scope (sparse_tuple_value P SP hf) l None n) as [n' [r|e]]; [|reflexivity].
  cbn [fst snd forget_sum option_map]. unfold er_tv. rewrite (unexpected_erase (map_tuple_value erase_expr) r). reflexivity.
Qed.
Lemma pattern_value_erase scope n l l' : Forall2 sim l l' ->
  parse_pattern_value P n l' = second (forget_sum (fun x => (fst x, snd x))) (sparse_pattern_value P scope n l).
Proof.
  intros H. destruct H as [|s a l l' Hs H]; [reflexivity|]. destruct s as [st sa1 sa2 sa3], a as [at_ aa1 aa2 aa3]. destruct Hs as (Hs & _ & _ & Ht).
  cbn [a_tok s_tok a_pattern s_pattern] in Hs, Ht. subst. destruct st as [x s|c j s|l0 s|d g s]; try reflexivity.
  - cbn. destruct (ident_allowed P x); reflexivity.
  - destruct d; try reflexivity. cbn. destruct sa3; reflexivity.
Qed.
Lemma pattern_erase scope l l' : Forall2 sim l l' -> parse_pattern P l' = forget_sum (fun t => t) (sparse_pattern P scope l).
Proof.
  intros H. unfold parse_pattern, sparse_pattern.
  rewrite (terminated_erase (fun x => x) scope (sparse_pattern_value P scope) _ (pattern_value_erase scope) _ _ H). unfold second. cbn [snd].
  destruct (snd (sparse_terminated scope (sparse_pattern_value P scope) l None 0%N)); [|reflexivity]. cbn. rewrite map_id. reflexivity.
Qed.
Lemma ann_sim t : sim (sann P SP hf t) (ann P hf (erase t)).
Proof.
  assert (D : forall t, sim {| s_tok := t; s_args := fun n => (n, []); s_tuple := fun n => (n, inr []); s_pattern := inr [] |}
                            {| a_tok := erase t; a_args := fun n => (n, []); a_tuple := fun n => (n, None); a_pattern := None |})
    by (intros; repeat split).
  induction t as [x s|c j s|l s|d ts s IH] using stt_ind'; try apply D. destruct d; try apply D.
  assert (H : Forall2 sim (map (sann P SP hf) ts) (map (ann P hf) (map erase ts))).
  { clear -IH. induction IH as [|t ts Ht _ IH]; [constructor|]. constructor; assumption. }
  split; [reflexivity|]. split; [intros n; apply args_erase, H|]. split; [intros n; apply tuple_erase, H|apply pattern_erase, H].
Qed.
Lemma anns_sim ts : Forall2 sim (map (sann P SP hf) ts) (map (ann P hf) (map erase ts)).
Proof. induction ts as [|t ts IH]; [constructor|]. constructor; [apply ann_sim|exact IH]. Qed.

(** ** Definitions *)
Definition er_item (x : sitem) : spec_item := (fst x, erase_expr (snd x)).
Lemma spec_item_erase n l l' : Forall2 sim l l' ->
  parse_spec_item P hf n l' = second (forget_sum (fun '(i, k, u) => (er_item i, S k, is_some u))) (sparse_spec_item P SP hf n l).
Proof.
  intros H. destruct H as [|s a l l' Hs H]; [reflexivity|]. destruct s as [st sa1 sa2 sa3], a as [at_ aa1 aa2 aa3]. destruct Hs as (Hs & _).
  cbn [a_tok s_tok] in Hs. subst. destruct st as [x s|c j s|l0 s|d g s]; try reflexivity. cbn [parse_spec_item sparse_spec_item erase].
  destruct H as [|q a r r' Hq H]; [destruct (ident_allowed P x); reflexivity|]. rewrite (proj1 Hq). destruct (ident_allowed P x); [|reflexivity]. cbn [andb].
  destruct (is_equals (erase (s_tok q))); [|reflexivity]. rewrite (expr_erase _ _ _ H). unfold second at 1.
  destruct (sparse_expr_ P SP hf n r) as [n' [[e k] u]]. cbn [fst snd er_e]. rewrite (sim_toks _ _ (sim_skipn k _ _ H)). unfold second. cbn [fst snd].
  destruct (ends is_separator _); reflexivity.
Qed.
Lemma peek_erase l l' : Forall2 sim l l' -> peek_ident P l' = speek_ident P l.
Proof.
  intros H. destruct H as [|s a l l' Hs H]; [reflexivity|]. destruct s as [st sa1 sa2 sa3], a as [at_ aa1 aa2 aa3]. destruct Hs as (Hs & _).
  cbn [a_tok s_tok] in Hs. subst. destruct st; reflexivity.
Qed.
(** What remains is not a function of what remains with spans, only related to it. *)
Definition rel_spec (o : option (list spec_item * option bool * list atok * bool))
  (r : list sitem * option bool * list satok * option syn_message + messages) : Prop :=
  match o, r with
  | Some (items, used, rest, u), inl (items', used', rest', u') =>
      items = map er_item items' /\ used = used' /\ Forall2 sim rest' rest /\ u = is_some u'
  | None, inr _ => True
  | _, _ => False
  end.
Lemma spec_erase l l' : Forall2 sim l l' -> forall skip used n,
  fst (parse_spec P hf l' skip used n) = fst (sparse_spec P SP hf l skip used n) /\
  rel_spec (snd (parse_spec P hf l' skip used n)) (snd (sparse_spec P SP hf l skip used n)).
Proof.
  induction 1 as [|s a l l' Hs Hl IH]; intros skip used n; [destruct skip as [[|k]|]; repeat split; constructor|]. cbn [parse_spec sparse_spec].
  destruct skip as [[|k]|].
  - rewrite (proj1 Hs). destruct (is_separator _); [|split; [reflexivity|exact I]]. cbv zeta.
    destruct (match used with Some u => _ | None => _ end); [split; [reflexivity|exact I]|]. rewrite (peek_erase _ _ Hl).
    destruct (speek_ident P l); [apply IH|]. repeat split. exact Hl.
  - apply IH.
  - rewrite (spec_item_erase n (s :: l) (a :: l')) by (constructor; assumption). unfold second.
    destruct (sparse_spec_item P SP hf n (s :: l)) as [n1 [[[item k] u]|e]]; [|split; [reflexivity|exact I]]. cbn [fst snd forget_sum].
    specialize (IH (Some k) used n1). destruct (parse_spec P hf l' (Some k) used n1) as [n2 o], (sparse_spec P SP hf l (Some k) used n1) as [n2' r]. cbn [fst snd] in IH |- *.
    destruct IH as (<- & Hr). split; [reflexivity|]. destruct o as [[[[items us] rest] v]|], r as [[[[items' us'] rest'] v']|e]; try contradiction; [|exact I].
    destruct Hr as (-> & -> & Hrest & ->). cbn. rewrite is_some_first. repeat split. exact Hrest.
Qed.

(** ** Loops *)
Lemma loop_alias_erase s rest a : sim s a -> parse_loop_alias P a = forget_sum (fun x => x) (sparse_loop_alias P s rest).
Proof.
  intros (H & _ & _ & Hp). unfold parse_loop_alias, sparse_loop_alias. rewrite H. destruct (s_tok s) as [x s'|c j s'|l0 s'|d g s']; try reflexivity; cbn [erase].
  - destruct (ident_allowed P x); reflexivity.
  - destruct d; try reflexivity. rewrite Hp. destruct (s_pattern s); reflexivity.
Qed.
Definition er_sv (x : ssource_value * option syn_message) : loop_source_value * bool := (plain_source (fst x), is_some (snd x)).
Lemma source_value_erase n l l' : Forall2 sim l l' ->
  parse_source_value P hf n l' = second (forget_sum (fun x => (er_sv (fst x), snd x))) (sparse_source_value P SP hf n l).
Proof.
  intros H. assert (E : forall n, match parse_expr P hf n l' with (n', (e, k, u)) => (n', Some (LSValue e, u, k)) end =
    second (forget_sum (fun x => (er_sv (fst x), snd x))) (match sparse_expr_ P SP hf n l with (n', (e, k, u)) => (n', inl (SLSValue e, u, k)) end)).
  { clear n. intros n. rewrite (expr_erase _ _ _ H). unfold second. destruct (sparse_expr_ P SP hf n l) as [n' [[e k] u]]. reflexivity. }
  unfold parse_source_value, sparse_source_value. destruct H as [|s a l l' Hs H]; [apply E|].
  destruct s as [st sa1 sa2 sa3], a as [at_ aa1 aa2 aa3]. destruct Hs as (Hs & _ & Ht & _).
  cbn [a_tok s_tok a_tuple s_tuple] in Hs, Ht. subst. destruct st as [x s|c j s|l0 s|d g s]; try apply E. destruct d; try apply E.
  cbn [erase a_tuple s_tuple]. rewrite Ht. unfold second at 1. destruct (sa2 n) as [n' [[t u]|e]]; [reflexivity|]. cbn [fst snd forget_sum]. apply E.
Qed.
Definition er_svs (x : list ssource_value * option syn_message) : list loop_source_value * bool := (map plain_source (fst x), is_some (snd x)).
Lemma source_list_erase n s a : sim s a -> parse_source_list P hf n a = second (forget_sum er_svs) (sparse_source_list P SP hf n s).
Proof.
  intros (H & _). unfold parse_source_list, sparse_source_list. rewrite H. destruct (s_tok s) as [x s'|c j s'|l0 s'|d g s']; try reflexivity. cbn [erase].
  destruct d; try reflexivity.
  rewrite (terminated_erase er_sv (ds_close s') (sparse_source_value P SP hf) _ source_value_erase _ _ (anns_sim g)). unfold second.
  destruct (sparse_terminated (ds_close s') (sparse_source_value P SP hf) _ None n) as [n' [r|e]]; [|reflexivity].
  cbn [fst snd forget_sum option_map]. unfold er_sv. rewrite (unexpected_erase plain_source r). reflexivity.
Qed.

Definition rel_loops (o : option (list loop_item * list atok * bool)) (r : list sloop_item * list satok * option syn_message + messages) : Prop :=
  match o, r with
  | Some (items, rest, u), inl (items', rest', u') => items = map plain_loop items' /\ Forall2 sim rest' rest /\ u = is_some u'
  | None, inr _ => True
  | _, _ => False
  end.
Lemma loops_erase : forall m l l', List.length l <= m -> Forall2 sim l l' -> forall n,
  fst (parse_loops P hf l' n) = fst (sparse_loops P SP hf l n) /\ rel_loops (snd (parse_loops P hf l' n)) (snd (sparse_loops P SP hf l n)).
Proof.
  induction m as [|m IH]; intros l l' Hm H n.
  { destruct H; [|cbn in Hm; lia]. repeat split. constructor. }
  destruct H as [|f f' l l' Hf H]; [repeat split; constructor|]. cbn [parse_loops sparse_loops]. rewrite (proj1 Hf).
  destruct (is_word _ _); [|repeat split; constructor; assumption].
  destruct H as [|p p' l l' Hp H]; [split; [reflexivity|exact I]|].
  assert (Hal := loop_alias_erase p l p' Hp).
  destruct H as [|k k' l l' Hk H]; [destruct (sparse_loop_alias P p []); split; try reflexivity; exact I|].
  destruct H as [|s s' l l' Hs H].
  { destruct (sparse_loop_alias P p _); [destruct (is_word _ _)|]; split; try reflexivity; exact I. }
  rewrite Hal. destruct (sparse_loop_alias P p _) as [al|e]; [|split; [reflexivity|exact I]]. cbn [forget_sum]. rewrite (proj1 Hk).
  destruct (is_word _ _); [|split; [reflexivity|exact I]]. rewrite (source_list_erase n _ _ Hs). unfold second.
  destruct (sparse_source_list P SP hf n s) as [n1 [[vals u]|e]]; [|split; [reflexivity|exact I]]. cbn [fst snd forget_sum er_svs].
  assert (IHl : List.length l <= m) by (cbn in Hm; lia). specialize (IH l l' IHl H n1).
  destruct (parse_loops P hf l' n1) as [n2 o], (sparse_loops P SP hf l n1) as [n2' r]. cbn [fst snd] in IH |- *.
  destruct IH as (<- & Hr). split; [reflexivity|]. destruct o as [[[items rest] v]|], r as [[[items' rest'] v']|e]; try contradiction; [|exact I].
  destruct Hr as (-> & Hrest & ->). cbn. rewrite is_some_first. repeat split. exact Hrest.
Qed.

Definition rel_header (o : option (option (list loop_item) * option alias_spec * list atok * bool))
  (r : option (list sloop_item) * option salias_spec * list satok * option syn_message + messages) : Prop :=
  match o, r with
  | Some (loops, spec, rest, u), inl (loops', spec', rest', u') =>
      loops = option_map (map plain_loop) loops' /\ spec = option_map plain_spec spec' /\ Forall2 sim rest' rest /\ u = is_some u'
  | None, inr _ => True
  | _, _ => False
  end.
Lemma header_erase n l l' : Forall2 sim l l' -> rel_header (parse_header P hf n l') (sparse_header P SP hf n l).
Proof.
  intros H. unfold parse_header, sparse_header. destruct (loops_erase _ _ _ (le_n _) H n) as (Hn & Hr).
  destruct (parse_loops P hf l' n) as [n1 o], (sparse_loops P SP hf l n) as [n1' r]. cbn [fst snd] in Hn, Hr. subst n1'.
  destruct o as [[[items rest] v]|], r as [[[items' rest'] v']|e]; try contradiction; [|exact I]. destruct Hr as (-> & Hrest & ->).
  assert (E : match map plain_loop items' with [] => None | _ :: _ => Some (map plain_loop items') end =
    option_map (map plain_loop) (match items' with [] => None | _ :: _ => Some items' end)) by (destruct items'; reflexivity).
  rewrite (peek_erase _ _ Hrest). destruct (speek_ident P rest'); [|repeat split; assumption].
  destruct (spec_erase _ _ Hrest None None n1) as (_ & Hs). destruct (snd (parse_spec P hf rest None None n1)) as [[[[its us] r2] w]|],
    (snd (sparse_spec P SP hf rest' None None n1)) as [[[[its' us'] r2'] w']|e]; try contradiction; [|exact I].
  destruct Hs as (-> & -> & Hr2 & ->). cbn [rel_header]. rewrite is_some_first. repeat split; assumption.
Qed.

Lemma uses_semicolons_erase spec : uses_semicolons (option_map plain_spec spec) = suses_semicolons spec.
Proof. destruct spec; reflexivity. Qed.
Lemma finish_erase sc u rest ast : plain_parsed (finish sc u rest ast) =
  {| p_scope := sc; p_ast := Ok (match rest with [] => if is_some u then None else Some (plain_ast (map erase_stmt) ast) | _ => None end) |}.
Proof. destruct u, rest; reflexivity. Qed.

Lemma func_macro_erase n ts : plain_parsed (sparse_func_macro P SP hf n ts) = parse_func_macro P hf n (map erase ts).
Proof.
  unfold sparse_func_macro, parse_func_macro. assert (H := header_erase n _ _ (anns_sim ts)).
  destruct (parse_header P hf n _) as [[[[lo sp] l] u]|], (sparse_header P SP hf n _) as [[[[lo' sp'] l'] u']|e]; try contradiction; [|reflexivity].
  destruct H as (-> & -> & Hl & ->). rewrite (sim_toks _ _ Hl), <- (spanless_pre_block _ _ HS), uses_semicolons_erase.
  destruct (spre_block SP (stoks l')) as [[[block k] u2]|]; [|reflexivity]. cbn [option_map erase_node]. rewrite <- skipn_erase.
  destruct (skipn k (stoks l')) as [|t r]; cbn [map].
  - rewrite finish_erase, is_some_first. reflexivity.
  - replace (trailing_mixed (erase t) (option_map plain_spec sp')) with (strailing_mixed t sp') by (destruct sp'; reflexivity).
    destruct (is_separator (erase t)); [|rewrite finish_erase; reflexivity]. cbn [andb]. destruct (strailing_mixed t sp'); [reflexivity|].
    cbn [negb]. rewrite finish_erase, is_some_first. destruct r; reflexivity.
Qed.
Lemma attr_macro_erase n attr item :
  plain_parsed (sparse_attr_macro P SP hf n attr item) = parse_attr_macro P hf n (map erase attr) (map erase item).
Proof.
  unfold sparse_attr_macro, parse_attr_macro. assert (H := header_erase n _ _ (anns_sim attr)).
  destruct (parse_header P hf n _) as [[[[lo sp] l] u]|], (sparse_header P SP hf n _) as [[[[lo' sp'] l'] u']|e]; try contradiction; [|reflexivity].
  destruct H as (-> & -> & Hl & ->). rewrite (sim_toks _ _ Hl), uses_semicolons_erase.
  assert (E : skip_separator (option_map (map plain_loop) lo') (option_map plain_spec sp') (map erase (stoks l')) = forget_sum (map erase) (sskip_separator lo' sp' (stoks l'))).
  { destruct (stoks l') as [|t r]; [reflexivity|]. cbn. destruct (is_separator (erase t)); [|reflexivity]. destruct sp', lo'; reflexivity. }
  rewrite E. destruct (sskip_separator lo' sp' (stoks l')) as [rest|e]; [|reflexivity]. cbn [forget_sum].
  destruct u' as [m|]; [destruct rest; reflexivity|]. destruct rest as [|t r]; [|reflexivity]. cbn [map finish is_some].
  change [TGroup Brace (map erase item)] with (map erase [sgroup Brace call_site item]). rewrite <- (spanless_pre_block _ _ HS).
  destruct (spre_block SP [sgroup Brace call_site item]) as [[[block k] u2]|]; [|reflexivity]. cbn [option_map erase_node]. rewrite finish_erase.
  destruct k as [|[|k]]; [reflexivity| |reflexivity]. destruct u2; reflexivity.
Qed.
End Parse.
