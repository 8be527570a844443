(** The process-wide counters do not matter. *)
From Coq Require Import String Bool.
From Verif Require Import Base BaseFacts Token Types Values Ast Env Item Expand Resolve Eval Deprecation Interpreter Parse Macro
  SpecProduct SpecTuple SpecElab SpecPrograms SpecParse SpecDeprecation SpecMacro SpecRepro
  ElabFacts ElabProofs ResolveFacts MacroProofs MeaningProofs InterpreterProofs ParseIds.
Open Scope list_scope.

(** ** Parsing *)
Section Parsing.
Context (P : parsers) (hf : str -> bool).

Definition er_value (x : expr * nat * bool) : expr * nat * bool := let '(e, k, u) := x in (erase e, k, u).
Definition er_best (x : nat * (expr * nat * bool)) := (fst x, er_value (snd x)).

Lemma value_same term ts n n' : er_value (snd (parse_value P term n ts)) = er_value (snd (parse_value P term n' ts)).
Proof.
  unfold parse_value.
  assert (H : forall l acc acc', option_map er_best (snd acc) = option_map er_best (snd acc') ->
    option_map er_best (snd (fold_left (attempt term ts) l acc)) = option_map er_best (snd (fold_left (attempt term ts) l acc'))).
  { induction l as [|o l IH]; intros acc acc' Ha; [exact Ha|]. cbn [fold_left]. apply IH. destruct acc as [m b], acc' as [m' b']. cbn [snd] in Ha.
    unfold attempt. destruct (try_parse term ts o) as [[[v k] u]|]; [|exact Ha].
    destruct b as [[q [[e j] w]]|], b' as [[q' [[e' j'] w']]|]; try discriminate Ha; [|reflexivity]. injection Ha as Hq He Hj Hw. subst.
    destruct (Nat.ltb q' (distance_to k ts)); [reflexivity|]. unfold er_best, er_value. cbn [snd fst option_map]. rewrite He. reflexivity. }
  specialize (H (attempts P ts) (n, None) (n', None) eq_refl).
  destruct (fold_left _ _ (n, None)) as [m [[q [[e j] w]]|]], (fold_left _ _ (n', None)) as [m' [[q' [[e' j'] w']]|]]; try discriminate H; [|reflexivity].
  cbn in *. injection H as _ He Hj Hw. congruence.
Qed.

Definition er_tup (x : tuple expr * bool) := (map_tuple erase (fst x), snd x).
Definition uniform (a : atok) : Prop :=
  (forall n n', map erase (snd (a_args a n)) = map erase (snd (a_args a n'))) /\
  (forall n n', option_map er_tup (snd (a_tuple a n)) = option_map er_tup (snd (a_tuple a n'))).

Definition er_call (x : N * (expr * nat)) : expr * nat := (erase (fst (snd x)), snd (snd x)).
Lemma call_same n n' l : Forall uniform l -> option_map er_call (parse_call P hf n l) = option_map er_call (parse_call P hf n' l).
Proof.
  intros Hu. unfold parse_call.
  destruct l as [|[[x|c j|lt|d ts] f1 f2 f3] [|[[y|c' j'|lt'|[| | |] inner] g1 g2 g3] l]]; try reflexivity.
  destruct (ident_allowed P x && hf x); [|reflexivity]. cbn [a_args].
  inversion Hu as [|? ? _ Hu1]; subst. inversion Hu1 as [|? ? (Ha & _) _]; subst. specialize (Ha n n'). cbn [a_args] in Ha.
  destruct (g1 n) as [m args], (g1 n') as [m' args']. cbn in *. unfold er_call. cbn. rewrite Ha. reflexivity.
Qed.
Lemma expr_same n n' l : Forall uniform l -> er_value (snd (parse_expr P hf n l)) = er_value (snd (parse_expr P hf n' l)).
Proof.
  intros Hu. unfold parse_expr. pose proof (call_same n n' l Hu) as H.
  destruct (parse_call P hf n l) as [[m [e k]]|], (parse_call P hf n' l) as [[m' [e' k']]|]; try discriminate H; [|apply value_same].
  cbn in *. injection H as -> ->. reflexivity.
Qed.

Lemma terminated_same {A B} (item : N -> list atok -> N * option (A * nat)) (er : A -> B) :
  (forall l n n', Forall uniform l -> option_map (fun p => (er (fst p), snd p)) (snd (item n l)) = option_map (fun p => (er (fst p), snd p)) (snd (item n' l))) ->
  forall l skip n n', Forall uniform l -> option_map (map er) (snd (parse_terminated item l skip n)) = option_map (map er) (snd (parse_terminated item l skip n')).
Proof.
  intros Hi l. induction l as [|t r IH]; intros skip n n' Hu; [reflexivity|]. cbn [parse_terminated].
  assert (Hr : Forall uniform r) by (inversion Hu; assumption).
  destruct skip as [[|k]|].
  - destruct (is_comma (a_tok t)); [apply IH, Hr|reflexivity].
  - apply IH, Hr.
  - specialize (Hi (t :: r) n n' Hu). destruct (item n (t :: r)) as [m [[a k]|]], (item n' (t :: r)) as [m' [[a' k']|]]; try discriminate Hi; [|reflexivity].
    cbn in Hi. injection Hi as Ha Hk. subst k'.
    set (x := match k with 0 => _ | S _ => _ end). set (x' := match k with 0 => if is_comma (a_tok t) then parse_terminated item r None m' else _ | S _ => _ end).
    assert (Hx : option_map (map er) (snd x) = option_map (map er) (snd x')).
    { unfold x, x'. destruct k as [|k]; [|apply IH, Hr]. destruct (is_comma (a_tok t)); [apply IH, Hr|reflexivity]. }
    destruct x as [y [l1|]], x' as [y' [l1'|]]; try discriminate Hx; [|reflexivity]. cbn in *. injection Hx as ->. rewrite Ha. reflexivity.
Qed.

Lemma auntil_uniform term l : Forall uniform l -> Forall uniform (auntil term l).
Proof. induction 1 as [|a l Ha Hl IH]; cbn; [constructor|]. destruct (term _); constructor; auto. Qed.
Lemma skipn_uniform k l : Forall uniform l -> Forall uniform (skipn k l).
Proof. intros H. rewrite Forall_forall in *. intros a Ha. apply H. rewrite <- (firstn_skipn k l). apply in_or_app. auto. Qed.

Lemma arg_same l n n' : Forall uniform l ->
  option_map (fun p => (erase (fst p), snd p)) (snd (parse_arg P hf n l)) = option_map (fun p => (erase (fst p), snd p)) (snd (parse_arg P hf n' l)).
Proof.
  intros Hu. unfold parse_arg. pose proof (expr_same n n' _ (auntil_uniform is_comma l Hu)) as H.
  destruct (parse_expr P hf n _) as [m [[e k] u]], (parse_expr P hf n' _) as [m' [[e' k'] u']]. cbn in *. injection H as He -> ->.
  destruct (skipn k' _); [|reflexivity]. destruct u'; [reflexivity|]. cbn. rewrite He. reflexivity.
Qed.
Lemma args_same l n n' : Forall uniform l -> map erase (snd (parse_args P hf l n)) = map erase (snd (parse_args P hf l n')).
Proof.
  intros Hu. unfold parse_args. pose proof (terminated_same (parse_arg P hf) erase arg_same l None n n' Hu) as H.
  destruct (parse_terminated _ _ _ n) as [m [a|]], (parse_terminated _ _ _ n') as [m' [a'|]]; try discriminate H; [|reflexivity]. cbn in *. congruence.
Qed.

Definition er_tvu (x : tuple_value expr * bool) := (map_tuple_value erase (fst x), snd x).
Lemma tuple_value_same l n n' : Forall uniform l ->
  option_map (fun p => (er_tvu (fst p), snd p)) (snd (parse_tuple_value P hf n l)) =
  option_map (fun p => (er_tvu (fst p), snd p)) (snd (parse_tuple_value P hf n' l)).
Proof.
  intros Hu. unfold parse_tuple_value.
  assert (He : option_map (fun p => (er_tvu (fst p), snd p)) (snd (match parse_expr P hf n l with (m, (e, k, u)) => (m, Some (TVValue e, u, k)) end)) =
               option_map (fun p => (er_tvu (fst p), snd p)) (snd (match parse_expr P hf n' l with (m, (e, k, u)) => (m, Some (TVValue e, u, k)) end))).
  { pose proof (expr_same n n' l Hu) as H. destruct (parse_expr P hf n l) as [m [[e k] u]], (parse_expr P hf n' l) as [m' [[e' k'] u']]. cbn in *.
    injection H as He -> ->. unfold er_tvu. cbn. rewrite He. reflexivity. }
  destruct l as [|[[x|c j|lt|[| | |] ts] f1 f2 f3] l]; try exact He.
  cbn [a_tuple]. inversion Hu as [|? ? (_ & Ht) _]; subst. specialize (Ht n n'). cbn [a_tuple] in Ht.
  destruct (f2 n) as [m [[t u]|]], (f2 n') as [m' [[t' u']|]]; try discriminate Ht; [|reflexivity]. cbn in *. injection Ht as Ht ->.
  unfold er_tvu, map_tuple in *. cbn. rewrite Ht. reflexivity.
Qed.
Lemma any_unexpected_map (l : list (tuple_value expr * bool)) :
  er_tup (any_unexpected l) = any_unexpected (map er_tvu l).
Proof.
  unfold er_tup, any_unexpected, map_tuple. cbn [fst snd]. rewrite !map_map. f_equal. induction l as [|[t b] l IH]; [reflexivity|]. cbn. rewrite IH. reflexivity.
Qed.
Lemma tuple_same l n n' : Forall uniform l -> option_map er_tup (snd (parse_tuple P hf l n)) = option_map er_tup (snd (parse_tuple P hf l n')).
Proof.
  intros Hu. unfold parse_tuple. pose proof (terminated_same (parse_tuple_value P hf) er_tvu tuple_value_same l None n n' Hu) as H.
  destruct (parse_terminated _ _ _ n) as [m [a|]], (parse_terminated _ _ _ n') as [m' [a'|]]; try discriminate H; [|reflexivity].
  cbn [snd option_map] in *. rewrite !any_unexpected_map. congruence.
Qed.

Lemma ann_uniform t : uniform (ann P hf t).
Proof.
  induction t as [x|c j|l|d ts IH] using tt_ind'; try (split; reflexivity). destruct d; try (split; reflexivity). cbn [ann].
  assert (Hu : Forall uniform (map (ann P hf) ts)) by (apply Forall_map; exact IH).
  split; intros n n'; cbn [a_args a_tuple]; [apply args_same|apply tuple_same]; exact Hu.
Qed.
Lemma ann_all ts : Forall uniform (map (ann P hf) ts).
Proof. apply Forall_map, Forall_forall. intros t _. apply ann_uniform. Qed.

(** *** Definitions *)
Definition er_item (x : spec_item * nat * bool) := let '(it, k, u) := x in ((fst it, erase (snd it)), k, u).
Lemma item_same n n' l : Forall uniform l -> option_map er_item (snd (parse_spec_item P hf n l)) = option_map er_item (snd (parse_spec_item P hf n' l)).
Proof.
  intros Hu. unfold parse_spec_item. destruct l as [|[[x|c j|lt|d ts] f1 f2 f3] [|eq r]]; try reflexivity.
  destruct (ident_allowed P x && is_equals (a_tok eq)); [|reflexivity].
  assert (Hr : Forall uniform r) by (inversion Hu as [|? ? _ H1]; inversion H1; assumption).
  pose proof (expr_same n n' r Hr) as H. destruct (parse_expr P hf n r) as [m [[e k] u]], (parse_expr P hf n' r) as [m' [[e' k'] u']]. cbn in H. injection H as He -> ->.
  cbn [snd]. destruct (ends _ _); [|reflexivity]. cbn. rewrite He. reflexivity.
Qed.
Definition er_spec (x : list spec_item * option bool * list atok * bool) := let '(its, used, l, u) := x in (map_items erase its, used, l, u).
Lemma spec_same l : forall skip used n n', Forall uniform l ->
  option_map er_spec (snd (parse_spec P hf l skip used n)) = option_map er_spec (snd (parse_spec P hf l skip used n')).
Proof.
  induction l as [|t r IH]; intros skip used n n' Hu; [destruct skip as [[|k]|]; reflexivity|].
  assert (Hr : Forall uniform r) by (inversion Hu; assumption).
  destruct skip as [[|k]|]; cbn [parse_spec].
  - destruct (is_separator (a_tok t)); [|reflexivity]. destruct (match used with Some u => _ | None => false end); [reflexivity|].
    destruct (peek_ident P r); [apply IH, Hr|reflexivity].
  - apply IH, Hr.
  - pose proof (item_same n n' (t :: r) Hu) as H.
    destruct (parse_spec_item P hf n (t :: r)) as [m [[[it k] u]|]], (parse_spec_item P hf n' (t :: r)) as [m' [[[it' k'] u']|]]; try discriminate H; [|reflexivity].
    cbn in H. injection H as Hx He -> ->. destruct k' as [|k']; [reflexivity|].
    specialize (IH (Some k') used m m' Hr).
    destruct (parse_spec P hf r (Some k') used m) as [q [[[[its us] l1] w]|]], (parse_spec P hf r (Some k') used m') as [q' [[[[its' us'] l1'] w']|]]; try discriminate IH; [|reflexivity].
    cbn in IH. injection IH as H1 -> -> ->. unfold map_items in H1. cbn. rewrite H1, Hx, He. reflexivity.
Qed.

(** *** Loops *)
Definition er_src (x : loop_source_value * bool) := (map_source erase (fst x), snd x).
Lemma source_same l n n' : Forall uniform l ->
  option_map (fun p => (er_src (fst p), snd p)) (snd (parse_source_value P hf n l)) =
  option_map (fun p => (er_src (fst p), snd p)) (snd (parse_source_value P hf n' l)).
Proof.
  intros Hu. unfold parse_source_value.
  assert (He : forall m m', option_map (fun p => (er_src (fst p), snd p)) (snd (match parse_expr P hf m l with (q, (e, k, u)) => (q, Some (LSValue e, u, k)) end)) =
               option_map (fun p => (er_src (fst p), snd p)) (snd (match parse_expr P hf m' l with (q, (e, k, u)) => (q, Some (LSValue e, u, k)) end))).
  { intros m m'. pose proof (expr_same m m' l Hu) as H. destruct (parse_expr P hf m l) as [q [[e k] u]], (parse_expr P hf m' l) as [q' [[e' k'] u']]. cbn in *.
    injection H as He -> ->. unfold er_src. cbn. rewrite He. reflexivity. }
  destruct l as [|[[x|c j|lt|[| | |] ts] f1 f2 f3] l]; try apply He.
  cbn [a_tuple]. inversion Hu as [|? ? (_ & Ht) _]; subst. specialize (Ht n n'). cbn [a_tuple] in Ht.
  destruct (f2 n) as [m [[t u]|]], (f2 n') as [m' [[t' u']|]]; try discriminate Ht; [|apply He]. cbn in *. injection Ht as Ht ->.
  unfold er_src. cbn. rewrite Ht. reflexivity.
Qed.
Definition er_srcs (x : list loop_source_value * bool) := (map (map_source erase) (fst x), snd x).
Lemma source_list_same t n n' : option_map er_srcs (snd (parse_source_list P hf n t)) = option_map er_srcs (snd (parse_source_list P hf n' t)).
Proof.
  unfold parse_source_list. destruct (a_tok t) as [x|c j|lt|[| | |] ts]; try reflexivity.
  pose proof (terminated_same (parse_source_value P hf) er_src source_same (map (ann P hf) ts) None n n' (ann_all ts)) as H.
  destruct (parse_terminated _ _ _ n) as [m [a|]], (parse_terminated _ _ _ n') as [m' [a'|]]; try discriminate H; [|reflexivity].
  cbn [snd option_map] in *. assert (G : forall l, er_srcs (any_unexpected l) = any_unexpected (map er_src l)).
  { intros l. unfold er_srcs, any_unexpected. cbn [fst snd]. rewrite !map_map. f_equal. induction l as [|[? b] l IH]; [reflexivity|]. cbn. rewrite IH. reflexivity. }
  rewrite !G. congruence.
Qed.
Definition er_loops (x : list loop_item * list atok * bool) := let '(its, l, u) := x in (map (map_loop erase) its, l, u).
Lemma loops_same l n n' : option_map er_loops (snd (parse_loops P hf l n)) = option_map er_loops (snd (parse_loops P hf l n')).
Proof.
  assert (H : forall k l, List.length l <= k -> forall n n', option_map er_loops (snd (parse_loops P hf l n)) = option_map er_loops (snd (parse_loops P hf l n'))).
  { clear l n n'. induction k as [|k IH]; intros [|f r0] Hl n n'; try reflexivity; [cbn in Hl; lia|].
    cbn [parse_loops]. destruct (is_word _ (a_tok f)); [|reflexivity]. destruct r0 as [|pat [|kw [|src r]]]; try reflexivity.
    destruct (parse_loop_alias P pat) as [al|]; [|reflexivity]. destruct (is_word _ (a_tok kw)); [|reflexivity].
    pose proof (source_list_same src n n') as H. destruct (parse_source_list P hf n src) as [m [[vs u]|]], (parse_source_list P hf n' src) as [m' [[vs' u']|]]; try discriminate H; [|reflexivity].
    cbn in H. injection H as Hv ->. specialize (IH r ltac:(cbn in Hl; lia) m m').
    destruct (parse_loops P hf r m) as [q [[[its l1] w]|]], (parse_loops P hf r m') as [q' [[[its' l1'] w']|]]; try discriminate IH; [|reflexivity].
    cbn in *. injection IH as H1 -> ->. unfold map_loop at 1 3. cbn. rewrite H1, Hv. reflexivity. }
  eapply H. apply le_n.
Qed.
Lemma loops_rest l : forall n its r u, Forall uniform l -> snd (parse_loops P hf l n) = Some (its, r, u) -> Forall uniform r.
Proof.
  assert (H : forall k l, List.length l <= k -> forall n its r u, Forall uniform l -> snd (parse_loops P hf l n) = Some (its, r, u) -> Forall uniform r).
  { clear l. induction k as [|k IH]; intros [|f r0] Hl n its r u Hu H; [injection H as _ <- _; exact Hu|cbn in Hl; lia|injection H as _ <- _; exact Hu|].
    cbn [parse_loops] in H. destruct (is_word _ (a_tok f)); [|injection H as _ <- _; exact Hu]. destruct r0 as [|pat [|kw [|src r1]]]; try discriminate H.
    destruct (parse_loop_alias P pat) as [al|]; [|discriminate H]. destruct (is_word _ (a_tok kw)); [|discriminate H].
    destruct (parse_source_list P hf n src) as [m [[vs w]|]]; [|discriminate H].
    specialize (IH r1 ltac:(cbn in Hl; lia) m). assert (Hr : Forall uniform r1) by (do 4 (inversion Hu as [|? ? _ Hu']; subst; clear Hu; rename Hu' into Hu); exact Hu).
    destruct (parse_loops P hf r1 m) as [q [[[its1 l1] w1]|]]; [|discriminate H]. cbn in H. injection H as _ -> _. eapply IH; [exact Hr|reflexivity]. }
  eapply H. apply le_n.
Qed.

Definition er_header (x : option (list loop_item) * option alias_spec * list atok * bool) :=
  let '(loops, spec, l, u) := x in (option_map (map (map_loop erase)) loops, option_map (map_spec erase) spec, l, u).
Lemma header_same n n' l : Forall uniform l -> option_map er_header (parse_header P hf n l) = option_map er_header (parse_header P hf n' l).
Proof.
  intros Hu. unfold parse_header. pose proof (loops_same l n n') as H. pose proof (loops_rest l n) as Hr.
  destruct (parse_loops P hf l n) as [m [[[its l1] u]|]], (parse_loops P hf l n') as [m' [[[its' l1'] u']|]]; try discriminate H; [|reflexivity].
  cbn in H, Hr. injection H as Hi -> ->. specialize (Hr _ _ _ Hu eq_refl).
  assert (Hl : option_map (map (map_loop erase)) (match its with [] => None | _ => Some its end) = option_map (map (map_loop erase)) (match its' with [] => None | _ => Some its' end))
    by (destruct its, its'; try discriminate Hi; [reflexivity|]; cbn [option_map]; congruence).
  destruct (peek_ident P l1').
  - pose proof (spec_same l1' None None m m' Hr) as H.
    destruct (parse_spec P hf l1' None None m) as [q [[[[sp us] l2] w]|]], (parse_spec P hf l1' None None m') as [q' [[[[sp' us'] l2'] w']|]]; try discriminate H; [|reflexivity].
    cbn [snd option_map er_spec] in H. injection H as H1 -> -> ->. cbn [snd option_map er_header]. rewrite Hl. unfold map_spec. cbn [spec_items is_comma_used]. rewrite H1. reflexivity.
  - cbn [option_map er_header]. rewrite Hl. reflexivity.
Qed.

Lemma uses_semicolons_erased s s' : option_map (map_spec erase) s = option_map (map_spec erase) s' -> uses_semicolons s = uses_semicolons s'.
Proof. destruct s as [[a b]|], s' as [[a' b']|]; cbn; intros H; try discriminate H; [|reflexivity]. injection H as _ ->. reflexivity. Qed.
Lemma trailing_erased t s s' : option_map (map_spec erase) s = option_map (map_spec erase) s' -> trailing_mixed t s = trailing_mixed t s'.
Proof. destruct s as [[a b]|], s' as [[a' b']|]; cbn; intros H; try discriminate H; [|reflexivity]. injection H as _ ->. reflexivity. Qed.
Lemma separator_erased l l' s s' ts : option_map (map (map_loop erase)) l = option_map (map (map_loop erase)) l' ->
  option_map (map_spec erase) s = option_map (map_spec erase) s' -> skip_separator l s ts = skip_separator l' s' ts.
Proof.
  unfold skip_separator. destruct l, l'; intros H1; try discriminate H1; destruct s, s'; intros H2; try discriminate H2; reflexivity.
Qed.

Lemma func_macro_same n n' ts : erase_parsed (parse_func_macro P hf n ts) = erase_parsed (parse_func_macro P hf n' ts).
Proof.
  unfold parse_func_macro. pose proof (header_same n n' (map (ann P hf) ts) (ann_all ts)) as H.
  destruct (parse_header P hf n _) as [[[[lo sp] l] u]|], (parse_header P hf n' _) as [[[[lo' sp'] l'] u']|]; try discriminate H; [|reflexivity].
  cbn [option_map er_header] in H. injection H as Hl Hs <- <-. destruct (pre_block P (toks l)) as [[[b k] u2]|]; [|reflexivity].
  rewrite (uses_semicolons_erased _ _ Hs).
  assert (Hd : forall c, erase_parsed {| p_scope := c; p_ast := Ok (if u || u2 then None else Some {| ast_loops := lo; ast_spec := sp; ast_block := b |}) |} =
                    erase_parsed {| p_scope := c; p_ast := Ok (if u || u2 then None else Some {| ast_loops := lo'; ast_spec := sp'; ast_block := b |}) |}).
  { intros c. destruct (u || u2); [reflexivity|]. unfold erase_parsed. cbn. unfold erase_ast, map_ast. cbn. rewrite Hl, Hs. reflexivity. }
  destruct (skipn k (toks l)) as [|t r]; [apply Hd|]. rewrite (trailing_erased t _ _ Hs). destruct (is_separator t && _); [|reflexivity]. destruct r; [apply Hd|reflexivity].
Qed.
Lemma attr_macro_same n n' attr item : erase_parsed (parse_attr_macro P hf n attr item) = erase_parsed (parse_attr_macro P hf n' attr item).
Proof.
  unfold parse_attr_macro. pose proof (header_same n n' (map (ann P hf) attr) (ann_all attr)) as H.
  destruct (parse_header P hf n _) as [[[[lo sp] l] u]|], (parse_header P hf n' _) as [[[[lo' sp'] l'] u']|]; try discriminate H; [|reflexivity].
  cbn [option_map er_header] in H. injection H as Hl Hs <- <-. rewrite (uses_semicolons_erased _ _ Hs), (separator_erased _ _ _ _ _ Hl Hs).
  destruct (skip_separator lo' sp' (toks l)) as [[|]|]; try reflexivity. destruct u; [reflexivity|].
  destruct (pre_block P _) as [[[b [|[|k]]] [|]]|]; try reflexivity. unfold erase_parsed. cbn. unfold erase_ast, map_ast. cbn. rewrite Hl, Hs. reflexivity.
Qed.
End Parsing.

(** ** Rounds *)
Lemma map_is_tuple {V W} (f : V -> W) t : is_tuple (map_tuple_value f t) = is_tuple t.
Proof. destruct t; reflexivity. Qed.
Lemma map_children {V W} (f : V -> W) l : flat_map children (map (map_tuple_value f) l) = map (map_tuple_value f) (flat_map children l).
Proof. induction l as [|[v|t] l IH]; [reflexivity|exact IH|]. cbn [map flat_map map_tuple_value children]. rewrite map_app, IH. reflexivity. Qed.
Lemma map_depth {V W} (f : V -> W) t : depth (map_tuple f t) = depth t.
Proof.
  assert (H : forall t, tv_depth (map_tuple_value f t) = tv_depth t).
  { clear t. induction t as [v|l IH] using tuple_ind'; [reflexivity|]. cbn [map_tuple_value tv_depth]. f_equal. induction IH as [|x l Hx _ IHl]; [reflexivity|]. cbn. congruence. }
  unfold depth, map_tuple. induction t as [|x t IH]; [reflexivity|]. cbn. rewrite H, IH. reflexivity.
Qed.
Lemma map_level_order {V W} (f : V -> W) d : forall l, level_order d (map (map_tuple_value f) l) = level_order d l.
Proof.
  induction d as [|d IH]; intros l; [reflexivity|]. cbn [level_order]. rewrite map_map, map_children, IH. f_equal. apply map_ext. intros t. apply map_is_tuple.
Qed.
Lemma map_nodes {V W} (f : V -> W) d : forall l, nodes_by_level d (map (map_tuple_value f) l) = map (map_tuple_value f) (nodes_by_level d l).
Proof. induction d as [|d IH]; intros l; [reflexivity|]. cbn [nodes_by_level]. rewrite map_app, map_children, IH. reflexivity. Qed.
Lemma map_values {V W} (f : V -> W) t : values_in_level_order (map_tuple f t) = map f (values_in_level_order t).
Proof.
  unfold values_in_level_order. rewrite map_depth. unfold map_tuple. rewrite map_nodes. induction (nodes_by_level (depth t) t) as [|[v|x] l IH]; [reflexivity| |exact IH].
  cbn. rewrite IH. reflexivity.
Qed.
Lemma map_kinds {V W} (f : V -> W) t : kinds_in_level_order (map_tuple f t) = kinds_in_level_order t.
Proof. unfold kinds_in_level_order. rewrite map_depth. apply map_level_order. Qed.

Lemma combine_map {A B C} (f : B -> C) (a : list A) b : combine a (map f b) = map (fun p => (fst p, f (snd p))) (combine a b).
Proof. revert b. induction a as [|x a IH]; intros [|y b]; try reflexivity. cbn. rewrite IH. reflexivity. Qed.

Lemma matched_map f p v : matched p (map_source f v) = option_map (map_items f) (matched p v).
Proof.
  destruct p as [a|a], v as [e|t]; try reflexivity. cbn [map_source matched]. rewrite map_kinds. destruct (list_eq_dec _ _ _); [|reflexivity].
  rewrite map_values, combine_map. reflexivity.
Qed.
Lemma all_matched_map f ps : forall vs, all_matched ps (map (map_source f) vs) = option_map (map_items f) (all_matched ps vs).
Proof.
  induction ps as [|p ps IH]; intros [|v vs]; try reflexivity. cbn [map all_matched]. rewrite matched_map, IH.
  destruct (matched p v), (all_matched ps vs); try reflexivity. cbn. unfold map_items. rewrite map_app. reflexivity.
Qed.
Lemma nested_map {A B} (f : A -> B) l : nested_loops (map (map f) l) = map (map f) (nested_loops l).
Proof.
  induction l as [|s l IH]; [reflexivity|]. cbn [map nested_loops]. rewrite IH. generalize (nested_loops l) as r. intros r.
  induction s as [|x s IHs]; [reflexivity|]. cbn [map flat_map]. rewrite map_app, <- IHs, !map_map. reflexivity.
Qed.
Lemma combinations_map {A B} (f : A -> B) l : all_combinations (map (map f) l) = map (map f) (all_combinations l).
Proof. destruct l; [reflexivity|]. apply (nested_map f (l :: l0)). Qed.

Lemma own_items_map {B} f (ast : raw_ast B) : own_items (map_ast f ast) = map_items f (own_items ast).
Proof. unfold own_items. cbn. destruct (ast_spec ast); reflexivity. Qed.
Lemma rounds_map {B} f (ast : raw_ast B) : rounds (map_ast f ast) = map (option_map (map_items f)) (rounds ast).
Proof.
  unfold rounds. rewrite own_items_map. cbn [map_ast ast_loops]. destruct (ast_loops ast) as [ls|]; [|reflexivity]. cbn [option_map].
  replace (map loop_values (map (map_loop f) ls)) with (map (map (map_source f)) (map loop_values ls)) by (rewrite !map_map; reflexivity).
  replace (map loop_pattern (map (map_loop f) ls)) with (map loop_pattern ls) by (rewrite map_map; reflexivity).
  rewrite combinations_map, !map_map. apply map_ext. intros c. rewrite all_matched_map. destruct (all_matched _ c); [|reflexivity].
  cbn. unfold map_items. rewrite map_app. reflexivity.
Qed.
Lemma all_some_map {A B} (f : A -> B) l : all_some (map (option_map f) l) = option_map (map f) (all_some l).
Proof. induction l as [|[x|] l IH]; try reflexivity. cbn. rewrite IH. destruct (all_some l); reflexivity. Qed.

(** ** Definitions that do not hash *)
Definition seed_free (f : func) : Prop := forall s s' vs, f_impl f s vs = f_impl f s' vs.
Inductive seedless : texpr -> Prop :=
| seedless_val v t : seedless (TEVal v t)
| seedless_call f args t : seed_free f -> Forall seedless args -> seedless (TECall f args t).
Definition no_hash (f : str) : bool := negb (str_eqb f (txt "hash")).

Section Seeds.
Context (O : oracles).

Lemma rows_seed_free k name fs : no_hash name = true -> assoc_str name (number_rows k (table O)) = Some fs -> Forall seed_free fs.
Proof.
  intros Hn H. assert (G : forall rows k, (forall r, In r rows -> no_hash (fst r) = true -> Forall (fun v => forall s s' vs, snd v s vs = snd v s' vs) (snd r)) ->
    assoc_str name (number_rows k rows) = Some fs -> Forall seed_free fs).
  { clear H k. induction rows as [|[nm vs] rows IH]; intros k Hr H; [discriminate H|]. cbn [number_rows assoc_str] in H. destruct (str_eqb name nm) eqn:E.
    - injection H as <-. apply str_eqb_eq in E as <-. specialize (Hr _ (or_introl eq_refl) Hn). cbn [snd] in Hr. generalize k. clear -Hr.
      induction Hr as [|[[a o] im] vs Hv _ IH]; intros k; cbn [number_variants]; constructor; [exact Hv|apply IH].
    - eapply IH; [|exact H]. intros r Hin. apply Hr. right; exact Hin. }
  eapply G; [|exact H]. clear. intros r Hr Hn.
  repeat (destruct Hr as [<-|Hr]; [first [discriminate Hn | cbn [snd]; repeat constructor; reflexivity]|]). destruct Hr.
Qed.

Lemma elab_args_seedless ps : forall args c tes, Forall (fun a => forall ex te c, a ex = inl (te, c) -> seedless te) args -> elab_args ps args = Some (c, tes) -> Forall seedless tes.
Proof.
  induction ps as [|[t m] ps IH]; intros [|a args] c tes Ha H; try (injection H as _ <-; constructor). cbn [elab_args] in H.
  destruct (a (Some t)) as [[te ca]|] eqn:Ea; [|discriminate]. destruct (elab_args ps args) as [[c' tes']|] eqn:E; [|discriminate]. injection H as _ <-.
  inversion Ha; subst. constructor; eauto.
Qed.
Lemma elab_seedless seed k G e : calls_known no_hash e -> forall ex te c, elab (new_initialized O seed k) G e ex = inl (te, c) -> seedless te.
Proof.
  induction e as [id v|id name args raw IH] using expr_ind'; intros Hk ex te c H; cbn [elab] in H.
  - destruct (coercion_cost _ _); [|discriminate]. injection H as <- _. constructor.
  - inversion Hk as [|? ? ? ? Hn Hargs]; subst. destruct (get_func_variants _ name) as [fs|] eqn:Ef; [|discriminate].
    destruct (best _) as [[[c1 f] tes]|] eqn:Eb; [|discriminate]. injection H as <- _. apply best_in, viable_in in Eb as [Hin He].
    constructor.
    + pose proof (rows_seed_free k name fs Hn Ef) as Hs. rewrite Forall_forall in Hs. apply Hs, Hin.
    + apply elab_func_inv in He as (c0 & _ & [(ts & _ & _ & _ & ->)|(_ & ps & c' & Hp & Ha & _)]); [repeat constructor|].
      eapply elab_args_seedless; [|exact Ha]. apply Forall_map. clear -IH Hargs. induction IH as [|x l Hx _ IHl]; [constructor|]. inversion Hargs; subst. constructor; [apply Hx; assumption|apply IHl; assumption].
Qed.
Lemma run_seedless te : seedless te -> forall s s' ctx, run O s ctx te = run O s' ctx te.
Proof.
  induction te as [v t|f args t IH] using texpr_ind'; intros H s s' ctx; [reflexivity|]. inversion H as [|? ? ? Hf Ha]; subst. cbn [run].
  assert (Hm : mapM (run O s ctx) args = mapM (run O s' ctx) args).
  { clear -IH Ha. induction IH as [|x l Hx _ IHl]; [reflexivity|]. inversion Ha; subst. cbn [mapM]. rewrite (Hx H1 s s'), IHl by assumption. reflexivity. }
  rewrite Hm. destruct (mapM (run O s' ctx) args); [|reflexivity|reflexivity]. cbn [bind]. rewrite (Hf s s'). reflexivity.
Qed.
Lemma elab_seed s s' k G e ex : elab (new_initialized O s k) G e ex = elab (new_initialized O s' k) G e ex.
Proof. reflexivity. Qed.
Lemma elab_items_seed s s' k items : forall G, elab_items (new_initialized O s k) G items = elab_items (new_initialized O s' k) G items.
Proof.
  induction items as [|[x e] items IH]; intros G; [reflexivity|]. cbn [elab_items]. rewrite (elab_seed s s'). destruct (elab _ G e None) as [[te c]|]; [|reflexivity].
  destruct (assoc_str x G); [reflexivity|]. rewrite IH. reflexivity.
Qed.
Lemma elab_items_seedless s k items : forall G tis, Forall (calls_known no_hash) (map snd items) -> elab_items (new_initialized O s k) G items = Ok tis -> Forall (fun p => seedless (snd p)) tis.
Proof.
  induction items as [|[x e] items IH]; intros G tis Hk H; [injection H as <-; constructor|]. cbn [elab_items] in H. inversion Hk; subst.
  destruct (elab _ G e None) as [[te c]|] eqn:E; [|discriminate]. destruct (assoc_str x G); [discriminate|]. destruct (elab_items _ _ items) as [r| |] eqn:Er; try discriminate.
  injection H as <-. constructor; [eapply elab_seedless; eassumption|eapply IH; eassumption].
Qed.
Lemma bindings_seed s s' k items : Forall (calls_known no_hash) (map snd items) -> bindings O (new_initialized O s k) items = bindings O (new_initialized O s' k) items.
Proof.
  intros Hk. unfold bindings. rewrite (elab_items_seed s s'). destruct (elab_items _ [] items) as [tis| |] eqn:E; try reflexivity. cbn [bind new_initialized e_seed].
  pose proof (elab_items_seedless _ _ _ _ _ Hk E) as Ht. clear E. generalize (@nil (str * value)). induction Ht as [|[x te] tis Hx _ IH]; intros ctx; [reflexivity|].
  cbn [run_items]. rewrite (run_seedless te Hx s s'). destruct (run _ _ _ te); try reflexivity. cbn [bind]. rewrite IH. reflexivity.
Qed.
End Seeds.

(** ** The output *)
Section Output.
Context (O : oracles) (P : parsers) (Y : syntax).

Lemma erase_known hf e e' : erase e = erase e' -> calls_known hf e -> calls_known hf e'.
Proof.
  revert e'. induction e as [id v|id name args raw IH] using expr_ind'; intros [id' v'|id' name' args' raw'] H Hk; try discriminate H; [constructor|].
  cbn in H. injection H as <- Ha _. inversion Hk as [|? ? ? ? Hn Hargs]; subst. constructor; [exact Hn|].
  revert args' Ha. clear -IH Hargs. induction IH as [|x l Hx _ IHl]; intros [|y args'] Ha; try discriminate Ha; [constructor|]. injection Ha as H1 H2. inversion Hargs; subst. constructor; auto.
Qed.

Lemma erase_items_map items : erase_items items = map_items erase items.
Proof. reflexivity. Qed.

Lemma substitutions_same s s' k k' spec spec' :
  NoDup (item_ids (spec_items spec)) -> NoDup (item_ids (spec_items spec')) ->
  erase_items (spec_items spec) = erase_items (spec_items spec') ->
  s = s' \/ Forall (calls_known no_hash) (map snd (spec_items spec)) ->
  make_substitutions O (new_initialized O s k) spec = make_substitutions O (new_initialized O s' k') spec'.
Proof.
  intros H1 H2 He [<-|Hk]; [apply invocations_agree; assumption|].
  transitivity (make_substitutions O (new_initialized O s' k) spec); [|apply invocations_agree; assumption].
  rewrite !make_substitutions_spec by exact H1. apply bindings_seed, Hk.
Qed.

Lemma execute_same s s' k k' n n' src prefix ast ast' :
  let inv := invocation_of O P s k n src in let inv' := invocation_of O P s' k' n' src in
  p_ast (inv_parsed inv) = Ok (Some ast) -> p_ast (inv_parsed inv') = Ok (Some ast') -> erase_ast ast = erase_ast ast' -> raised inv = raised inv' ->
  s = s' \/ hash_free ast ->
  execute O Y (new_initialized O s k) (thread_for prefix inv) ast = execute O Y (new_initialized O s' k') (thread_for prefix inv') ast'.
Proof.
  intros inv inv' Hp Hp' He Hr Hs. unfold execute. pose proof (expand_rounds ast) as Hx. pose proof (expand_rounds ast') as Hx'.
  assert (Hro : option_map (map (map_items erase)) (all_some (rounds ast)) = option_map (map (map_items erase)) (all_some (rounds ast'))).
  { rewrite <- !all_some_map, <- !rounds_map. unfold erase_ast in He. rewrite He. reflexivity. }
  assert (Hb : ast_block ast = ast_block ast') by (apply (f_equal ast_block) in He; exact He).
  destruct (all_some (rounds ast)) as [rs|] eqn:Er, (all_some (rounds ast')) as [rs'|] eqn:Er'; try discriminate Hro; [|rewrite Hx, Hx'; reflexivity].
  cbn [option_map] in Hro. assert (Hro' : map (map_items erase) rs = map (map_items erase) rs') by congruence. clear Hro. destruct Hx as (rws & Hx & HF), Hx' as (rws' & Hx' & HF'). rewrite Hx, Hx'. cbn [bind].
  assert (Ht : thread_for prefix inv = thread_for prefix inv') by (unfold thread_for; rewrite Hr; reflexivity). rewrite <- Ht.
  assert (Hm : mapM (execute_block_rewrite O Y (new_initialized O s k) (thread_for prefix inv)) rws = mapM (execute_block_rewrite O Y (new_initialized O s' k') (thread_for prefix inv)) rws').
  { assert (HA : Forall (fun rw => NoDup (item_ids (spec_items (fst rw))) /\ (s = s' \/ Forall (calls_known no_hash) (map snd (spec_items (fst rw))))) rws).
    { apply Forall_forall. intros rw Hin. split; [exact (proj1 (source_rewrite O P _ _ _ _ _ _ _ Hp Hx Hin))|]. destruct Hs as [Hs|Hs]; [left; exact Hs|right].
      eapply part_Forall; [exact (expand_part _ _ _ Hx Hin)|exact Hs]. }
    assert (HA' : Forall (fun rw => NoDup (item_ids (spec_items (fst rw)))) rws').
    { apply Forall_forall. intros rw Hin. exact (proj1 (source_rewrite O P _ _ _ _ _ _ _ Hp' Hx' Hin)). }
    rewrite <- Hb in HF'. clear -Hro' HF HF' HA HA'. revert rs' rws' Hro' HF' HA'. induction HF as [|items rw rs rws (Hb & Hi) HF IH]; intros rs' rws' Hro HF' HA'.
    - destruct rs'; [|discriminate Hro]. inversion HF'; subst. reflexivity.
    - destruct rs' as [|items' rs']; [discriminate Hro|]. inversion HF' as [|? rw' ? rws2 (Hb' & Hi') HF2]; subst. cbn [map] in Hro. injection Hro as H1 H2.
      inversion HA as [|? ? (Hn & Hk) HA1]; subst. inversion HA' as [|? ? Hn' HA1']; subst. cbn [mapM].
      assert (E : execute_block_rewrite O Y (new_initialized O s k) (thread_for prefix inv) rw = execute_block_rewrite O Y (new_initialized O s' k') (thread_for prefix inv) rw').
      { unfold execute_block_rewrite. rewrite (substitutions_same s s' k k' (fst rw) (fst rw') Hn Hn' H1 Hk), Hb, Hb'. reflexivity. }
      rewrite E. destruct (execute_block_rewrite _ _ _ _ rw'); try reflexivity. cbn [bind]. rewrite (IH HA1 rs' rws2 H2 HF2 HA1'). reflexivity. }
  rewrite Hm. reflexivity.
Qed.

Lemma outcome_same prefix u u' : same_use O P u u' -> outcome O Y prefix (invocation_for O P u) = outcome O Y prefix (invocation_for O P u').
Proof.
  destruct u as [src s k n], u' as [src' s' k' n']. unfold same_use. cbn [u_source u_seed]. intros (<- & Hs).
  assert (He : erase_parsed (inv_parsed (invocation_of O P s k n src)) = erase_parsed (inv_parsed (invocation_of O P s' k' n' src))).
  { destruct src; cbn [inv_parsed invocation_of]; [apply func_macro_same..|apply attr_macro_same]. }
  unfold invocation_for in *. cbn [u_source u_seed u_first_id u_next_id] in *. unfold outcome.
  pose proof (execute_same s s' k k' n n' src prefix) as Hx. cbn zeta in Hx.
  assert (Hr : raised (invocation_of O P s k n src) = raised (invocation_of O P s' k' n' src)).
  { apply (f_equal p_scope) in He. cbn [erase_parsed p_scope] in He. unfold raised. rewrite He. reflexivity. }
  apply (f_equal p_ast) in He. cbn [erase_parsed p_ast] in He.
  destruct (p_ast (inv_parsed (invocation_of O P s k n src))) as [[ast|]|e|p], (p_ast (inv_parsed (invocation_of O P s' k' n' src))) as [[ast'|]|e'|p']; try discriminate He; try reflexivity; try congruence.
  cbn in He. injection He as H1 H2 H3. cbn [inv_seed inv_first_id invocation_of].
  rewrite (Hx ast ast' eq_refl eq_refl); [reflexivity|unfold erase_ast, map_ast; congruence|exact Hr|]. destruct Hs as [Hs|Hs]; [left; exact Hs|right; apply Hs; reflexivity].
Qed.

Lemma uses_same uses uses' : Forall2 (same_use O P) uses uses' -> expand_uses O P Y uses = expand_uses O P Y uses'.
Proof.
  intros H. assert (G : forall prefix, map (fun u => outcome O Y prefix (invocation_for O P u)) uses = map (fun u => outcome O Y prefix (invocation_for O P u)) uses').
  { intros prefix. induction H as [|u u' r r' Hu _ IH]; [reflexivity|]. cbn [map]. rewrite IH, (outcome_same _ _ _ Hu). reflexivity. }
  unfold expand_uses. destruct H as [|u u' r r' Hu H]; [reflexivity|]. cbn [map] in *.
  rewrite !run_fresh. cbn [snd]. destruct Hu as (Hsrc & _).
  change (invocation_for O P u :: map (invocation_for O P) r) with (map (invocation_for O P) (u :: r)). change (invocation_for O P u' :: map (invocation_for O P) r') with (map (invocation_for O P) (u' :: r')).
  rewrite !map_map.
  replace (inv_prefix (invocation_for O P u')) with (inv_prefix (invocation_for O P u)) by (unfold invocation_for; cbn [inv_prefix invocation_of]; rewrite Hsrc; reflexivity).
  apply G.
Qed.
End Output.
