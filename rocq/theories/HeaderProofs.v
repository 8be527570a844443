(** The parsers of Parse.v on tokens with other identifiers. *)
From Coq Require Import String Lia.
From Verif Require Import Base BaseFacts Token Types Values Ast Env Item Interpreter Parse Macro SpecRepro SpecRename SpecHeaders RenameWalk.
Open Scope list_scope.

Section Headers.
Context (r : naming) (P : parsers) (has_func : str -> bool).
Context (A : reads_alike r P) (F : same_functions r has_func).
Notation rename := (rename r).
Notation rename1 := (rename1 r).

Lemma word_rename w t : spared r w -> is_word w (rename1 t) = is_word w t.
Proof.
  intros H. destruct t as [x|c j|l|d ts]; try reflexivity. cbn [SpecRename.rename1 is_word]. destruct (str_eqb w x) eqn:E.
  - apply str_eqb_eq in E as ->. apply str_eqb_eq. symmetry. apply (H x). reflexivity.
  - destruct (str_eqb w (r x)) eqn:G; [|reflexivity]. apply str_eqb_eq in G. symmetry in G. apply (proj1 (H x)) in G. exfalso. apply (Bool.diff_true_false). rewrite <- E. symmetry. apply str_eqb_eq. symmetry. exact G.
Qed.
Lemma punct_rename c t : is_punct c (rename1 t) = is_punct c t.
Proof. destruct t; reflexivity. Qed.
Lemma separator_rename t : is_separator (rename1 t) = is_separator t.
Proof. unfold is_separator, is_comma, is_semicolon. rewrite !punct_rename. reflexivity. Qed.
Lemma leaf_rename : forall t, leaf_count (rename1 t) = leaf_count t.
Proof. intros t. induction t as [x|c j|l|d ts IH] using tt_ind'; try reflexivity. cbn [SpecRename.rename1 leaf_count]. induction IH as [|t ts Ht _ IHts]; [reflexivity|]. cbn [map fold_right]. rewrite Ht, IHts. reflexivity. Qed.
Lemma distance_rename k ts : distance_to k (rename ts) = distance_to k ts.
Proof. unfold distance_to. rewrite rename_firstn. generalize (firstn k ts). intros l. induction l as [|t l IH]; [reflexivity|]. cbn. rewrite leaf_rename. unfold SpecRename.rename in IH. rewrite IH. reflexivity. Qed.
Lemma ends_rename term ts : (forall t, term (rename1 t) = term t) -> ends term (rename ts) = ends term ts.
Proof. intros H. destruct ts; [reflexivity|apply H]. Qed.

(** ** Values *)
Definition ren_candidate (c : candidate) : candidate := let '(v, k, u) := c in (rename_value r v, k, u).
Lemma attempts_rename ts : attempts P (rename ts) = map (option_map ren_candidate) (attempts P ts).
Proof.
  unfold attempts. cbn [map]. destruct A as [(_ & _ & W) I1 I2 I3 I4 I5 I6].
  unfold lit_int_candidate, lit_str_candidate, node_candidate. rewrite I2, I3, I4, I5, I6.
  assert (U : underscore_candidate (rename ts) = option_map ren_candidate (underscore_candidate ts)).
  { destruct ts as [|t ts]; [reflexivity|]. change (rename (t :: ts)) with (rename1 t :: rename ts). unfold underscore_candidate. rewrite word_rename, punct_rename by exact W.
    destruct (is_word [95%N] t || is_punct 95%N t); [|reflexivity]. cbn. rewrite (proj2 (W [95%N]) eq_refl). reflexivity. }
  assert (V : ident_candidate P (rename ts) = option_map ren_candidate (ident_candidate P ts)).
  { destruct ts as [|[x|c j|l|d g] ts]; try reflexivity. cbn. rewrite I1. destruct (ident_allowed P x); reflexivity. }
  rewrite U, V. repeat f_equal.
  - destruct (pre_lit_int P ts) as [[[? ?] ?]|]; reflexivity.
  - destruct (pre_lit_str P ts) as [[[? ?] ?]|]; reflexivity.
  - destruct (pre_path P ts) as [[[? ?] ?]|]; reflexivity.
  - destruct (pre_type P ts) as [[[? ?] ?]|]; reflexivity.
  - destruct (pre_expr P ts) as [[[? ?] ?]|]; reflexivity.
Qed.
Definition ren_best (b : option (nat * (expr * nat * bool))) : option (nat * (expr * nat * bool)) :=
  option_map (fun '(m, (e, k, u)) => (m, (rename_expr r e, k, u))) b.
Definition ren_acc (a : N * option (nat * (expr * nat * bool))) := (fst a, ren_best (snd a)).
Lemma attempt_rename term ts acc o : (forall t, term (rename1 t) = term t) ->
  attempt term (rename ts) (ren_acc acc) (option_map ren_candidate o) = ren_acc (attempt term ts acc o).
Proof.
  intros T. destruct acc as [n best]. unfold attempt, ren_acc. cbn [fst snd]. destruct o as [[[v k] u]|]; [|reflexivity]. cbn [option_map ren_candidate try_parse].
  rewrite rename_skipn, ends_rename by exact T. destruct (ends term (skipn k ts)); [|reflexivity].
  cbv zeta. rewrite (distance_rename k ts).
  destruct best as [[m [[e k'] u']]|]; [|reflexivity]. cbn [ren_best option_map]. destruct (Nat.ltb m (distance_to k ts)); reflexivity.
Qed.
Lemma attempts_fold term ts l : (forall t, term (rename1 t) = term t) -> forall acc,
  fold_left (attempt term (rename ts)) (map (option_map ren_candidate) l) (ren_acc acc) = ren_acc (fold_left (attempt term ts) l acc).
Proof. intros T. induction l as [|o l IH]; intros acc; [reflexivity|]. cbn [map fold_left]. rewrite attempt_rename by exact T. apply IH. Qed.
Lemma until_rename term ts : (forall t, term (rename1 t) = term t) -> until term (rename ts) = rename (until term ts).
Proof. intros T. induction ts as [|t ts IH]; [reflexivity|]. cbn. rewrite T. destruct (term t); [reflexivity|]. cbn. unfold SpecRename.rename in IH. rewrite IH. reflexivity. Qed.
Definition ren_result (x : N * (expr * nat * bool)) : N * (expr * nat * bool) := let '(n, (e, k, u)) := x in (n, (rename_expr r e, k, u)).
Lemma value_rename term n ts : (forall t, term (rename1 t) = term t) -> parse_value P term n (rename ts) = ren_result (parse_value P term n ts).
Proof.
  intros T. unfold parse_value. rewrite attempts_rename. change (n, @None (nat * (expr * nat * bool))) with (ren_acc (n, None)) at 1. rewrite attempts_fold by exact T.
  destruct (fold_left _ _ _) as [n' [[m [[e k] u]]|]]; [reflexivity|]. unfold ren_acc. cbn [fst snd ren_best option_map]. cbv zeta. rewrite until_rename by exact T. cbn. rewrite rename_length. reflexivity.
Qed.

(** ** Annotated tokens *)
Record arel (a a' : atok) : Prop := {
  ar_tok : a_tok a' = rename1 (a_tok a);
  ar_args : forall n, a_args a' n = (fst (a_args a n), map (rename_expr r) (snd (a_args a n)));
  ar_tuple : forall n, a_tuple a' n = (fst (a_tuple a n), option_map (fun x => (map_tuple (rename_expr r) (fst x), snd x)) (snd (a_tuple a n)));
  ar_pattern : a_pattern a' = option_map (map_tuple r) (a_pattern a);
}.
Notation arels := (Forall2 arel).
Lemma toks_rename l l' : arels l l' -> toks l' = rename (toks l).
Proof. induction 1 as [|a a' l l' H _ IH]; [reflexivity|]. cbn [toks map]. unfold toks in IH. rewrite (ar_tok _ _ H), IH. reflexivity. Qed.
Lemma arels_skipn k l l' : arels l l' -> arels (skipn k l) (skipn k l').
Proof. intros H. revert k. induction H; intros [|k]; cbn; try constructor; auto. Qed.
Lemma arels_length l l' : arels l l' -> List.length l' = List.length l.
Proof. induction 1; cbn; congruence. Qed.
Lemma auntil_rename term l l' : (forall t, term (rename1 t) = term t) -> arels l l' -> arels (auntil term l) (auntil term l').
Proof. intros T. induction 1 as [|a a' l l' H _ IH]; [constructor|]. cbn. rewrite (ar_tok _ _ H), T. destruct (term (a_tok a)); constructor; assumption. Qed.

Definition ren_call (x : N * (expr * nat)) := let '(n, (e, k)) := x in (n, (rename_expr r e, k)).
Lemma call_rename n l l' : arels l l' -> parse_call P has_func n l' = option_map ren_call (parse_call P has_func n l).
Proof.
  intros H. destruct H as [|a a' l l' H1 H]; [reflexivity|]. unfold parse_call. pose proof (ar_tok _ _ H1) as E1. destruct a as [t aa at_ ap], a' as [t' aa' at' ap']. cbn [a_tok] in E1. subst t'.
  destruct t as [x|c j|lt|d ts]; try reflexivity. cbn [SpecRename.rename1]. destruct H as [|g g' l l' H2 H]; [reflexivity|]. pose proof (ar_tok _ _ H2) as E2. pose proof (ar_args _ _ H2) as E3.
  destruct g as [t ga gt gp], g' as [t' ga' gt' gp']. cbn [a_tok a_args] in *. subst t'. destruct t as [y|c j|lt|d ts]; try reflexivity. cbn [SpecRename.rename1]. destruct d; try reflexivity.
  rewrite (alike_ident _ _ A), F. destruct (ident_allowed P x && has_func x); [|reflexivity]. rewrite E3. destruct (ga n) as [n1 args]. reflexivity.
Qed.
Lemma comma_rename t : is_comma (rename1 t) = is_comma t.
Proof. apply punct_rename. Qed.
Lemma expr_rename n l l' : arels l l' -> parse_expr P has_func n l' = ren_result (parse_expr P has_func n l).
Proof.
  intros H. unfold parse_expr. rewrite (call_rename n l l' H). destruct (parse_call P has_func n l) as [[n' [e k]]|]; [reflexivity|]. cbn [option_map]. rewrite (toks_rename _ _ H). apply value_rename, comma_rename.
Qed.

(** ** Lists *)
Section Terminated.
Context {B : Type} (h : B -> B) (item item' : N -> list atok -> N * option (B * nat)).
Context (I : forall n l l', arels l l' -> item' n l' = (fst (item n l), option_map (fun x => (h (fst x), snd x)) (snd (item n l)))).
Lemma terminated_rename l l' : arels l l' -> forall skip n,
  parse_terminated item' l' skip n = (fst (parse_terminated item l skip n), option_map (map h) (snd (parse_terminated item l skip n))).
Proof.
  induction 1 as [|a a' l l' H1 H IH]; intros skip n; [reflexivity|]. cbn [parse_terminated]. rewrite (ar_tok _ _ H1), comma_rename. destruct skip as [[|k]|].
  - destruct (is_comma (a_tok a)); [apply IH|reflexivity].
  - apply IH.
  - rewrite (I n (a :: l) (a' :: l') (Forall2_cons _ _ H1 H)). destruct (item n (a :: l)) as [n1 [[b k]|]]; [|reflexivity]. cbn [fst snd option_map]. destruct k as [|k].
    + destruct (is_comma (a_tok a)); [|reflexivity]. rewrite IH. destruct (parse_terminated item l None n1) as [n2 [rest|]]; reflexivity.
    + rewrite IH. destruct (parse_terminated item l (Some k) n1) as [n2 [rest|]]; reflexivity.
Qed.
End Terminated.

Lemma arg_rename n l l' : arels l l' -> parse_arg P has_func n l' = (fst (parse_arg P has_func n l), option_map (fun x => (rename_expr r (fst x), snd x)) (snd (parse_arg P has_func n l))).
Proof.
  intros H. unfold parse_arg. pose proof (auntil_rename is_comma l l' comma_rename H) as Hu. rewrite (expr_rename n _ _ Hu). destruct (parse_expr P has_func n (auntil is_comma l)) as [n' [[e k] u]]. cbn [ren_result fst snd].
  rewrite (arels_length _ _ Hu). pose proof (arels_skipn k _ _ Hu) as Hs. destruct Hs; [|reflexivity]. destruct u; reflexivity.
Qed.
Lemma args_rename l l' n : arels l l' -> parse_args P has_func l' n = (fst (parse_args P has_func l n), map (rename_expr r) (snd (parse_args P has_func l n))).
Proof.
  intros H. unfold parse_args. rewrite (terminated_rename (rename_expr r) (parse_arg P has_func) (parse_arg P has_func) arg_rename l l' H).
  destruct (parse_terminated (parse_arg P has_func) l None n) as [n' [args|]]; reflexivity.
Qed.
Definition ren_tv (x : tuple_value expr * bool) := (map_tuple_value (rename_expr r) (fst x), snd x).
Lemma tuple_value_rename n l l' : arels l l' ->
  parse_tuple_value P has_func n l' = (fst (parse_tuple_value P has_func n l), option_map (fun x => (ren_tv (fst x), snd x)) (snd (parse_tuple_value P has_func n l))).
Proof.
  intros H. assert (D : (let '(n', (e, k, u)) := parse_expr P has_func n l' in (n', Some (TVValue e, u, k))) =
    (fst (let '(n', (e, k, u)) := parse_expr P has_func n l in (n', Some (TVValue e, u, k))), option_map (fun x => (ren_tv (fst x), snd x)) (snd (let '(n', (e, k, u)) := parse_expr P has_func n l in (n', Some (TVValue e, u, k)))))).
  { rewrite (expr_rename n l l' H). destruct (parse_expr P has_func n l) as [n' [[e k] u]]. reflexivity. }
  unfold parse_tuple_value. destruct H as [|a a' l l' H1 H]; [exact D|]. pose proof (ar_tok _ _ H1) as E1. pose proof (ar_tuple _ _ H1 n) as E2. destruct a as [t aa at_ ap], a' as [t' aa' at' ap']. cbn [a_tok a_tuple] in *. subst t'.
  destruct t as [x|c j|lt|[| | |] ts]; try exact D. cbn [SpecRename.rename1]. cbn [a_tuple]. rewrite E2. destruct (at_ n) as [n' [[t u]|]]; reflexivity.
Qed.
Lemma tuple_rename l l' n : arels l l' ->
  parse_tuple P has_func l' n = (fst (parse_tuple P has_func l n), option_map (fun x => (map_tuple (rename_expr r) (fst x), snd x)) (snd (parse_tuple P has_func l n))).
Proof.
  intros H. unfold parse_tuple. rewrite (terminated_rename ren_tv (parse_tuple_value P has_func) (parse_tuple_value P has_func) tuple_value_rename l l' H).
  destruct (parse_terminated (parse_tuple_value P has_func) l None n) as [n' [vs|]]; [|reflexivity]. cbn [fst snd option_map].
  assert (X : any_unexpected (map ren_tv vs) = (map_tuple (rename_expr r) (fst (any_unexpected vs)), snd (any_unexpected vs))).
  { clear. induction vs as [|x vs IH]; [reflexivity|]. unfold any_unexpected in *. cbn [map fst snd existsb map_tuple] in *. injection IH as I1 I2. unfold tuple in *. rewrite I1, I2. reflexivity. }
  rewrite X. reflexivity.
Qed.
Lemma pattern_value_rename n l l' : arels l l' ->
  parse_pattern_value P n l' = (fst (parse_pattern_value P n l), option_map (fun x => (map_tuple_value r (fst x), snd x)) (snd (parse_pattern_value P n l))).
Proof.
  intros H. unfold parse_pattern_value. destruct H as [|a a' l l' H1 H]; [reflexivity|]. pose proof (ar_tok _ _ H1) as E1. pose proof (ar_pattern _ _ H1) as E2. destruct a as [t aa at_ ap], a' as [t' aa' at' ap']. cbn [a_tok a_pattern] in *. subst t'.
  destruct t as [x|c j|lt|[| | |] ts]; try reflexivity; cbn [SpecRename.rename1].
  - rewrite (alike_ident _ _ A). destruct (ident_allowed P x); reflexivity.
  - cbn [a_pattern]. rewrite E2. destruct ap; reflexivity.
Qed.
Lemma pattern_rename l l' : arels l l' -> parse_pattern P l' = option_map (map_tuple r) (parse_pattern P l).
Proof. intros H. unfold parse_pattern. rewrite (terminated_rename (map_tuple_value r) (parse_pattern_value P) (parse_pattern_value P) pattern_value_rename l l' H). reflexivity. Qed.

Lemma ann_rename : forall t, arel (ann P has_func t) (ann P has_func (rename1 t)).
Proof.
  intros t. induction t as [x|c j|l|d ts IH] using tt_ind'; try (constructor; reflexivity).
  assert (H : arels (map (ann P has_func) ts) (map (ann P has_func) (map rename1 ts))) by (induction IH; cbn [map]; constructor; assumption).
  destruct d; try (constructor; reflexivity). cbn [ann SpecRename.rename1]. constructor; cbn [a_tok a_args a_tuple a_pattern]; [reflexivity| | |].
  - intros n. apply args_rename, H.
  - intros n. apply tuple_rename, H.
  - apply pattern_rename, H.
Qed.
Lemma anns_rename ts : arels (map (ann P has_func) ts) (map (ann P has_func) (rename ts)).
Proof. induction ts; cbn; constructor; [apply ann_rename|assumption]. Qed.

(** ** Definitions *)
Definition ren_item (x : spec_item * nat * bool) := let '(it, k, u) := x in (rename_definition r it, k, u).
Lemma spec_item_rename n l l' : arels l l' -> parse_spec_item P has_func n l' = (fst (parse_spec_item P has_func n l), option_map ren_item (snd (parse_spec_item P has_func n l))).
Proof.
  intros H. unfold parse_spec_item. destruct H as [|a a' l l' H1 H]; [reflexivity|]. pose proof (ar_tok _ _ H1) as E1. destruct a as [t aa at_ ap], a' as [t' aa' at' ap']. cbn [a_tok] in E1. subst t'.
  destruct t as [x|c j|lt|d ts]; try reflexivity. cbn [SpecRename.rename1]. destruct H as [|g g' l l' H2 H]; [reflexivity|]. rewrite (ar_tok _ _ H2). unfold is_equals. rewrite punct_rename, (alike_ident _ _ A).
  destruct (ident_allowed P x && is_punct 61%N (a_tok g)); [|reflexivity]. rewrite (expr_rename n _ _ H). destruct (parse_expr P has_func n l) as [n' [[e k] u]]. cbn [ren_result].
  rewrite (toks_rename _ _ (arels_skipn k _ _ H)), (ends_rename is_separator _ separator_rename). destruct (ends is_separator (toks (skipn k l))); reflexivity.
Qed.
Lemma peek_rename l l' : arels l l' -> peek_ident P l' = peek_ident P l.
Proof. intros H. destruct H as [|a a' l l' H1 H]; [reflexivity|]. pose proof (ar_tok _ _ H1) as E1. destruct a as [t aa at_ ap], a' as [t' aa' at' ap']. cbn [a_tok] in E1. subst t'. destruct t; try reflexivity. apply (alike_ident _ _ A). Qed.
(** The results with what remains related. *)
Definition spec_rel (x x' : N * option (list spec_item * option bool * list atok * bool)) : Prop :=
  fst x' = fst x /\
  match snd x, snd x' with
  | Some (its, c, l, u), Some (its', c', l', u') => its' = map (rename_definition r) its /\ c' = c /\ arels l l' /\ u' = u
  | None, None => True
  | _, _ => False
  end.
Lemma spec_rename l l' : arels l l' -> forall skip used n, spec_rel (parse_spec P has_func l skip used n) (parse_spec P has_func l' skip used n).
Proof.
  induction 1 as [|a a' l l' H1 H IH]; intros skip used n.
  - destruct skip as [[|k]|]; cbn; repeat split; constructor.
  - cbn [parse_spec]. rewrite (ar_tok _ _ H1), separator_rename, comma_rename. destruct skip as [[|k]|].
    + destruct (is_separator (a_tok a)); [|cbn; repeat split]. cbv zeta. destruct (match used with Some u => negb (Bool.eqb u (is_comma (a_tok a))) | None => false end); [cbn; repeat split|].
      rewrite (peek_rename _ _ H). destruct (peek_ident P l); [apply IH|]. cbn. repeat split. exact H.
    + apply IH.
    + rewrite (spec_item_rename n (a :: l) (a' :: l') (Forall2_cons _ _ H1 H)). destruct (parse_spec_item P has_func n (a :: l)) as [n1 [[[it k] u]|]]; [|cbn; repeat split]. cbn [fst snd option_map ren_item]. destruct k as [|k]; [cbn; repeat split|].
      specialize (IH (Some k) used n1). destruct (parse_spec P has_func l (Some k) used n1) as [n2 rest], (parse_spec P has_func l' (Some k) used n1) as [n2' rest']. destruct IH as [I1 I2]. cbn [fst snd] in *. subst n2'.
      split; [reflexivity|]. cbn [snd]. destruct rest as [[[[its c] m] v]|], rest' as [[[[its' c'] m'] v']|]; try contradiction; [|exact I]. destruct I2 as (-> & -> & J & ->). cbn. repeat split. exact J.
Qed.

(** ** Loops *)
Lemma loop_alias_rename a a' : arel a a' -> parse_loop_alias P a' = option_map (rename_pattern r) (parse_loop_alias P a).
Proof.
  intros H. unfold parse_loop_alias. rewrite (ar_tok _ _ H), (ar_pattern _ _ H). destruct (a_tok a) as [x|c j|lt|[| | |] ts]; try reflexivity; cbn [SpecRename.rename1].
  - rewrite (alike_ident _ _ A). destruct (ident_allowed P x); reflexivity.
  - destruct (a_pattern a); reflexivity.
Qed.
Definition ren_sv (x : loop_source_value * bool) := (map_source (rename_expr r) (fst x), snd x).
Lemma source_value_rename n l l' : arels l l' ->
  parse_source_value P has_func n l' = (fst (parse_source_value P has_func n l), option_map (fun x => (ren_sv (fst x), snd x)) (snd (parse_source_value P has_func n l))).
Proof.
  intros H. assert (D : forall n, (let '(n', (e, k, u)) := parse_expr P has_func n l' in (n', Some (LSValue e, u, k))) =
    (fst (let '(n', (e, k, u)) := parse_expr P has_func n l in (n', Some (LSValue e, u, k))), option_map (fun x => (ren_sv (fst x), snd x)) (snd (let '(n', (e, k, u)) := parse_expr P has_func n l in (n', Some (LSValue e, u, k)))))).
  { intros m. rewrite (expr_rename m l l' H). destruct (parse_expr P has_func m l) as [n' [[e k] u]]. reflexivity. }
  unfold parse_source_value. cbv zeta. destruct H as [|a a' l l' H1 H]; [apply D|]. pose proof (ar_tok _ _ H1) as E1. pose proof (ar_tuple _ _ H1 n) as E2. destruct a as [t aa at_ ap], a' as [t' aa' at' ap']. cbn [a_tok a_tuple] in *. subst t'.
  destruct t as [x|c j|lt|[| | |] ts]; try apply D. cbn [SpecRename.rename1] in *. cbn [a_tuple]. rewrite E2. destruct (at_ n) as [n' [[t u]|]]; [reflexivity|]. apply D.
Qed.
Lemma source_list_rename n a a' : arel a a' ->
  parse_source_list P has_func n a' = (fst (parse_source_list P has_func n a), option_map (fun x => (map (map_source (rename_expr r)) (fst x), snd x)) (snd (parse_source_list P has_func n a))).
Proof.
  intros H. unfold parse_source_list. rewrite (ar_tok _ _ H). destruct (a_tok a) as [x|c j|lt|[| | |] ts]; try reflexivity. cbn [SpecRename.rename1].
  rewrite (terminated_rename ren_sv (parse_source_value P has_func) (parse_source_value P has_func) source_value_rename _ _ (anns_rename ts)).
  destruct (parse_terminated (parse_source_value P has_func) (map (ann P has_func) ts) None n) as [n' [vs|]]; [|reflexivity]. cbn [fst snd option_map].
  assert (X : any_unexpected (map ren_sv vs) = (map (map_source (rename_expr r)) (fst (any_unexpected vs)), snd (any_unexpected vs))).
  { clear. induction vs as [|x vs IH]; [reflexivity|]. unfold any_unexpected in *. cbn [map fst snd existsb] in *. injection IH as I1 I2. rewrite I1, I2. reflexivity. }
  rewrite X. reflexivity.
Qed.
Definition loops_rel (x x' : N * option (list loop_item * list atok * bool)) : Prop :=
  fst x' = fst x /\
  match snd x, snd x' with
  | Some (its, l, u), Some (its', l', u') => its' = map (rename_loop r) its /\ arels l l' /\ u' = u
  | None, None => True
  | _, _ => False
  end.
Lemma loops_rename : forall m l l' n, (List.length l <= m)%nat -> arels l l' -> loops_rel (parse_loops P has_func l n) (parse_loops P has_func l' n).
Proof.
  induction m as [|m IH]; intros l l' n Hm H.
  { destruct H; [|cbn in Hm; lia]. cbn. repeat split. constructor. }
  destruct H as [|f f' l l' H1 H]; [cbn; repeat split; constructor|]. cbn [parse_loops]. destruct (alike_words _ _ A) as (Wf & Wi & _). rewrite (ar_tok _ _ H1), (word_rename (txt "for")) by exact Wf.
  destruct (is_word (txt "for") (a_tok f)); [|cbn; repeat split; constructor; assumption].
  destruct H as [|p p' l l' H2 H]; [cbn; repeat split|]. destruct H as [|w w' l l' H3 H]; [cbn; repeat split|]. destruct H as [|s s' l l' H4 H]; [cbn; repeat split|].
  rewrite (loop_alias_rename _ _ H2), (ar_tok _ _ H3), (word_rename (txt "in")) by exact Wi. destruct (parse_loop_alias P p) as [al|]; [|cbn; repeat split]. cbn [option_map].
  destruct (is_word (txt "in") (a_tok w)); [|cbn; repeat split]. rewrite (source_list_rename n _ _ H4). destruct (parse_source_list P has_func n s) as [n1 [[vs u]|]]; [|cbn; repeat split]. cbn [fst snd option_map].
  assert (J := IH l l' n1 ltac:(cbn in Hm; lia) H). destruct (parse_loops P has_func l n1) as [n2 rest], (parse_loops P has_func l' n1) as [n2' rest']. destruct J as [J1 J2]. cbn [fst snd] in *. subst n2'. split; [reflexivity|]. cbn [snd].
  destruct rest as [[[its q] v]|], rest' as [[[its' q'] v']|]; try contradiction; [|exact I]. destruct J2 as (-> & J & ->). cbn. repeat split. exact J.
Qed.

(** ** Headers and macros *)
Definition header_rel (x x' : option (option (list loop_item) * option alias_spec * list atok * bool)) : Prop :=
  match x, x' with
  | Some (lo, sp, l, u), Some (lo', sp', l', u') =>
      lo' = option_map (map (rename_loop r)) lo /\ sp' = option_map (rename_spec r) sp /\ arels l l' /\ u' = u
  | None, None => True
  | _, _ => False
  end.
Lemma header_rename n l l' : arels l l' -> header_rel (parse_header P has_func n l) (parse_header P has_func n l').
Proof.
  intros H. unfold parse_header. assert (J := loops_rename (List.length l) l l' n (le_n _) H). destruct (parse_loops P has_func l n) as [n1 lo], (parse_loops P has_func l' n) as [n1' lo']. destruct J as [J1 J2]. cbn [fst snd] in *. subst n1'.
  destruct lo as [[[lo l1] u]|], lo' as [[[lo' l1'] u']|]; try contradiction; [|exact I]. destruct J2 as (-> & J & ->). cbv zeta. rewrite (peek_rename _ _ J).
  assert (L : match map (rename_loop r) lo with [] => None | _ :: _ => Some (map (rename_loop r) lo) end = option_map (map (rename_loop r)) match lo with [] => None | _ :: _ => Some lo end) by (destruct lo; reflexivity).
  destruct (peek_ident P l1).
  - destruct (spec_rename l1 l1' J None None n1) as [_ K]. destruct (snd (parse_spec P has_func l1 None None n1)) as [[[[its c] m] v]|], (snd (parse_spec P has_func l1' None None n1)) as [[[[its' c'] m'] v']|]; try contradiction; [|exact I].
    destruct K as (-> & -> & K & ->). cbn [header_rel]. repeat split; [exact L|exact K].
  - cbn [header_rel]. repeat split; [exact L|exact J].
Qed.
Context (B : forall ts, pre_block P (rename ts) = option_map (fun '(b, k, u) => (rename_block r b, k, u)) (pre_block P ts)).
Lemma semicolons_rename sp : uses_semicolons (option_map (rename_spec r) sp) = uses_semicolons sp.
Proof. destruct sp; reflexivity. Qed.
Lemma trailing_rename t sp : trailing_mixed (rename1 t) (option_map (rename_spec r) sp) = trailing_mixed t sp.
Proof. destruct sp; [|reflexivity]. unfold trailing_mixed. rewrite comma_rename. reflexivity. Qed.
Lemma skip_rename lo sp ts : skip_separator (option_map (map (rename_loop r)) lo) (option_map (rename_spec r) sp) (rename ts) = option_map rename (skip_separator lo sp ts).
Proof.
  destruct ts as [|t ts]; [reflexivity|]. change (rename (t :: ts)) with (rename1 t :: rename ts). unfold skip_separator. rewrite separator_rename. destruct (is_separator t); [|reflexivity]. destruct sp, lo; reflexivity.
Qed.
Theorem func_rename n ts : parse_func_macro P has_func n (rename ts) = rename_parsed r (parse_func_macro P has_func n ts).
Proof.
  unfold parse_func_macro. assert (J := header_rename n _ _ (anns_rename ts)). destruct (parse_header P has_func n (map (ann P has_func) ts)) as [[[[lo sp] l] u]|], (parse_header P has_func n (map (ann P has_func) (rename ts))) as [[[[lo' sp'] l'] u']|]; try contradiction; [|reflexivity].
  destruct J as (-> & -> & J & ->). rewrite (toks_rename _ _ J), B. destruct (pre_block P (toks l)) as [[[b k] u2]|]; [|reflexivity]. cbn [option_map]. cbv zeta. rewrite semicolons_rename, rename_skipn.
  destruct (skipn k (toks l)) as [|t ts']; [destruct (u || u2); reflexivity|]. change (rename (t :: ts')) with (rename1 t :: rename ts'). cbv iota. rewrite separator_rename, trailing_rename.
  destruct (is_separator t && negb (trailing_mixed t sp)); [|reflexivity]. destruct ts' as [|t' ts']; [destruct (u || u2); reflexivity|reflexivity].
Qed.
Theorem attr_rename n attr item : parse_attr_macro P has_func n (rename attr) (rename item) = rename_parsed r (parse_attr_macro P has_func n attr item).
Proof.
  unfold parse_attr_macro. assert (J := header_rename n _ _ (anns_rename attr)). destruct (parse_header P has_func n (map (ann P has_func) attr)) as [[[[lo sp] l] u]|], (parse_header P has_func n (map (ann P has_func) (rename attr))) as [[[[lo' sp'] l'] u']|]; try contradiction; [|reflexivity].
  destruct J as (-> & -> & J & ->). rewrite (toks_rename _ _ J), semicolons_rename, skip_rename. cbv zeta. destruct (skip_separator lo sp (toks l)) as [[|t ts]|]; try reflexivity. cbn [option_map]. change (rename []) with (@nil tt). cbv iota.
  destruct u; [reflexivity|]. change [TGroup Brace (rename item)] with (rename [TGroup Brace item]). rewrite B. destruct (pre_block P [TGroup Brace item]) as [[[b [|[|k]]] [|]]|]; reflexivity.
Qed.
End Headers.
