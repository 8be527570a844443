(** Proofs about the three macros. *)
From Coq Require Import String.
From Verif Require Import Base BaseFacts Token Types Values Ast Env Item Deprecation Interpreter Parse Macro SpecElab SpecParse SpecDeprecation
  SpecForms ParseProofs ParseIds SeparatorProofs InterpreterProofs MeaningProofs.
Open Scope list_scope.

Section Forms.
Context (P : parsers) (hf : str -> bool) (Hw : within P).
Let ann' := ann P hf.
Let cm := ann P hf comma.

Lemma attempts_alike s tail : ignores P s tail -> attempts P (s ++ comma :: tail) = attempts P s.
Proof.
  intros (H1 & H2 & H3 & H4 & H5). unfold attempts, lit_int_candidate, lit_str_candidate, node_candidate.
  rewrite H1, H2, H3, H4, H5.
  assert (E1 : underscore_candidate (s ++ comma :: tail) = underscore_candidate s) by (destruct s; reflexivity).
  assert (E2 : ident_candidate P (s ++ comma :: tail) = ident_candidate P s) by (destruct s as [|[x|c j|l|d ts] r]; reflexivity).
  rewrite E1, E2. reflexivity.
Qed.
Lemma ends_tail term k s tail : term comma = true -> k <= List.length s -> ends term (skipn k (s ++ comma :: tail)) = ends term (skipn k s).
Proof.
  intros Ht Hk. rewrite skipn_app. replace (k - List.length s) with 0 by lia. cbn [skipn].
  destruct (skipn k s) as [|t r]; [exact Ht|reflexivity].
Qed.
Lemma distance_tail k s tail : k <= List.length s -> distance_to k (s ++ tail) = distance_to k s.
Proof. intros Hk. unfold distance_to. rewrite firstn_app. replace (k - List.length s) with 0 by lia. cbn [firstn]. rewrite app_nil_r. reflexivity. Qed.

Definition within_list (len : nat) (l : list (option candidate)) : Prop :=
  Forall (fun o => match o with Some (_, k, _) => k <= len | None => True end) l.
Lemma attempts_within s : within_list (List.length s) (attempts P s).
Proof.
  destruct Hw as (H1 & H2 & H3 & H4 & H5 & _). unfold attempts, within_list, lit_int_candidate, lit_str_candidate, underscore_candidate, ident_candidate, node_candidate.
  repeat constructor.
  - destruct (pre_lit_int P s) as [[[d r] k]|] eqn:E; [exact (H1 _ _ _ _ E)|exact I].
  - destruct (pre_lit_str P s) as [[[d r] k]|] eqn:E; [exact (H2 _ _ _ _ E)|exact I].
  - destruct s as [|t r]; [exact I|]. destruct (_ || _); [cbn; lia|exact I].
  - destruct s as [|[x|c j|l|d ts] r]; try exact I. destruct (ident_allowed P x); [cbn; lia|exact I].
  - destruct (pre_path P s) as [[[d r] k]|] eqn:E; [exact (H3 _ _ _ _ E)|exact I].
  - destruct (pre_type P s) as [[[d r] k]|] eqn:E; [exact (H4 _ _ _ _ E)|exact I].
  - destruct (pre_expr P s) as [[[d r] k]|] eqn:E; [exact (H5 _ _ _ _ E)|exact I].
Qed.
Lemma fold_alike s tail l : within_list (List.length s) l -> forall acc,
  fold_left (attempt is_comma (s ++ comma :: tail)) l acc = fold_left (attempt is_comma s) l acc.
Proof.
  induction 1 as [|o l Ho _ IH]; intros acc; [reflexivity|]. cbn [fold_left]. rewrite IH. f_equal.
  destruct acc as [n best]. unfold attempt, try_parse. destruct o as [[[v k] u]|]; [|reflexivity].
  rewrite ends_tail by (reflexivity || exact Ho). destruct (ends is_comma (skipn k s)); [|reflexivity]. rewrite distance_tail by exact Ho. reflexivity.
Qed.
Lemma until_tail s tail : until is_comma (s ++ comma :: tail) = until is_comma s.
Proof. induction s as [|t r IH]; [reflexivity|]. cbn [app until]. destruct (is_comma t); [reflexivity|]. f_equal. exact IH. Qed.

Lemma value_alike n s tail : ignores P s tail -> parse_value P is_comma n (s ++ comma :: tail) = parse_value P is_comma n s.
Proof.
  intros H. unfold parse_value. rewrite (attempts_alike _ _ H), (fold_alike _ _ _ (attempts_within s)), until_tail. reflexivity.
Qed.
Lemma value_within n s n' e k u : parse_value P is_comma n s = (n', (e, k, u)) -> k <= List.length s.
Proof.
  intros H. apply value_best in H as [(c & v & id & _ & Ht & _)|(_ & id & tokens & rest & _ & -> & _ & -> & _)].
  - exact (takes_within _ _ _ _ _ _ Hw Ht).
  - rewrite app_length. lia.
Qed.

Lemma expr_alike n s tail : ignores P s tail -> parse_expr P hf n (map ann' (s ++ comma :: tail)) = parse_expr P hf n (map ann' s).
Proof.
  intros H. unfold parse_expr. unfold ann'. rewrite !toks_ann. fold ann'. rewrite (value_alike _ _ _ H).
  assert (E : parse_call P hf n (map ann' (s ++ comma :: tail)) = parse_call P hf n (map ann' s)); [|rewrite E; reflexivity].
  unfold parse_call. destruct s as [|t [|t' r]]; [reflexivity| |].
  - cbn [app map]. pose proof (ann_tok P hf t) as Ht. fold ann' in Ht. destruct (ann' t) as [t0 f1 f2 f3]. cbn in Ht. subst t0.
    destruct t as [x|c j|l|d ts]; reflexivity.
  - reflexivity.
Qed.
Lemma expr_within n s n' e k u : parse_expr P hf n (map ann' s) = (n', (e, k, u)) -> k <= List.length s.
Proof.
  unfold parse_expr. destruct (parse_call P hf n (map ann' s)) as [[n1 [e1 k1]]|] eqn:E.
  - intros H. injection H as _ _ <- _. unfold parse_call in E. destruct s as [|t [|t' r]]; cbn [map] in E.
    + discriminate.
    + destruct (ann' t) as [[x|c j|l|d ts] f1 f2 f3]; discriminate.
    + destruct (ann' t) as [[x|c j|l|d ts] f1 f2 f3]; try discriminate. destruct (ann' t') as [[x'|c' j'|l'|[| | |] ts'] f1' f2' f3']; try discriminate.
      destruct (_ && _); [|discriminate]. destruct (a_args _ _). injection E as _ _ <-. cbn. lia.
  - unfold ann'. rewrite toks_ann. apply value_within.
Qed.

(** A definition in front of the comma. *)
Lemma item_alike n s tail : (forall a s', s = a ++ s' -> ignores P s' tail) ->
  parse_spec_item P hf n (map ann' (s ++ comma :: tail)) = parse_spec_item P hf n (map ann' s).
Proof.
  intros H. destruct s as [|t [|eq r]]; [reflexivity| |].
  - cbn [app map parse_spec_item]. pose proof (ann_tok P hf t) as Ht. fold ann' in Ht. destruct (ann' t) as [t0 f1 f2 f3]. cbn in Ht. subst t0.
    destruct t as [x|c j|l|d ts]; try reflexivity. rewrite andb_false_r. reflexivity.
  - cbn [app map parse_spec_item]. destruct (ann' t) as [[x|c j|l|d ts] f1 f2 f3]; try reflexivity. destruct (_ && _); [|reflexivity].
    rewrite (expr_alike n r tail) by (apply (H [t; eq]); reflexivity).
    destruct (parse_expr P hf n (map ann' r)) as [n' [[e k] u]] eqn:E. unfold ann'. rewrite !skipn_ann, !toks_ann.
    rewrite ends_tail; [reflexivity|reflexivity|exact (expr_within _ _ _ _ _ _ E)].
Qed.
Lemma item_within n s n' d k u : parse_spec_item P hf n (map ann' s) = (n', Some (d, k, u)) -> 2 <= k <= List.length s.
Proof.
  unfold parse_spec_item. destruct s as [|t [|eq r]]; cbn [map]; [discriminate| |].
  - destruct (ann' t) as [[x|c j|l|d' ts] f1 f2 f3]; discriminate.
  - destruct (ann' t) as [[x|c j|l|d' ts] f1 f2 f3]; try discriminate. destruct (_ && _); [|discriminate].
    destruct (parse_expr P hf n (map ann' r)) as [n1 [[e k1] u1]] eqn:E. apply expr_within in E.
    destruct (ends _ _); [|discriminate]. intros H. injection H as _ _ <- _. cbn. lia.
Qed.

Definition more (tail : list atok) (o : option (list spec_item * option bool * list atok * bool)) :=
  option_map (fun '(items, used, rest, u) => (items, used, rest ++ tail, u)) o.

Lemma peek_front s tail : peek_ident P (map ann' (s ++ comma :: tail)) = peek_ident P (map ann' (s ++ [comma])).
Proof. destruct s; reflexivity. Qed.

(** The list with the comma behind it, and more behind the comma. *)
Lemma spec_alike len : forall s tail skip used n, List.length s <= len -> match skip with Some k => k <= List.length s | None => True end ->
  (forall a s', s = a ++ s' -> ignores P s' tail /\ ignores P s' []) -> peek_ident P (map ann' tail) = false ->
  parse_spec P hf (map ann' (s ++ comma :: tail)) skip used n =
  (fst (parse_spec P hf (map ann' (s ++ [comma])) skip used n), more (map ann' tail) (snd (parse_spec P hf (map ann' (s ++ [comma])) skip used n))).
Proof.
  induction len as [|len IH]; intros s tail skip used n Hlen Hk H Ht.
  - destruct s; [|cbn in Hlen; lia]. destruct skip as [[|k]|]; [|cbn in Hk; lia|reflexivity].
    change (map ann' ([] ++ comma :: tail)) with (ann' comma :: map ann' tail). change (map ann' ([] ++ [comma])) with (ann' comma :: map ann' []).
    unfold ann'. rewrite !at_separator. fold ann'. rewrite Ht. cbn [map peek_ident]. change (is_separator comma) with true. change (is_comma comma) with true. cbv iota.
    destruct (match used with Some u => negb (Bool.eqb u true) | None => false end); reflexivity.
  - destruct skip as [k|].
    + rewrite !(parse_spec_skip P hf k). unfold ann'. rewrite !skipn_ann. fold ann'. rewrite !skipn_app.
      replace (k - List.length s) with 0 by lia. cbn [skipn].
      assert (Hs : forall a s', skipn k s = a ++ s' -> ignores P s' tail /\ ignores P s' []).
      { intros a s' E. apply (H (firstn k s ++ a)). rewrite <- app_assoc, <- E. symmetry. apply firstn_skipn. }
      assert (Hl : List.length (skipn k s) <= S len) by (rewrite skipn_length; lia). clear Hk H. revert Hs Hl. generalize (skipn k s). clear s Hlen. intros s H Hlen.
      destruct s as [|t r].
      * cbn [app]. change (map ann' (comma :: tail)) with (ann' comma :: map ann' tail). change (map ann' [comma]) with (ann' comma :: map ann' []).
        unfold ann'. rewrite !at_separator. fold ann'. rewrite Ht. cbn [map peek_ident]. change (is_separator comma) with true. change (is_comma comma) with true. cbv iota.
        destruct (match used with Some u => negb (Bool.eqb u true) | None => false end); reflexivity.
      * cbn [app map]. unfold ann' at 1 3 5. rewrite !at_separator. destruct (is_separator t); [|reflexivity].
        destruct (match used with Some u => negb (Bool.eqb u (is_comma t)) | None => false end); [reflexivity|].
        rewrite peek_front. destruct (peek_ident P (map ann' (r ++ [comma]))) eqn:Ep.
        -- apply IH; [cbn in Hlen; lia|exact I| |exact Ht]. intros a s' ->. apply (H (t :: a)). reflexivity.
        -- cbn [fst snd more option_map]. rewrite <- map_app, <- app_assoc. reflexivity.
    + rewrite !parse_spec_item_eq by (destruct s; discriminate).
      rewrite (item_alike n s tail) by (intros a s' E; exact (proj1 (H a s' E))).
      rewrite (item_alike n s []) by (intros a s' E; exact (proj2 (H a s' E))).
      destruct (parse_spec_item P hf n (map ann' s)) as [n1 [[[d k] u]|]] eqn:Ei; [|reflexivity].
      apply item_within in Ei. destruct k as [|k]; [lia|]. unfold ann'. rewrite !skipn_ann. fold ann'. rewrite !skipn_app.
      replace (S k - List.length s) with 0 by lia. rewrite !skipn_O.
      rewrite (IH (skipn (S k) s) tail (Some 0) used n1).
      * destruct (parse_spec P hf (map ann' (skipn (S k) s ++ [comma])) (Some 0) used n1) as [n2 [[[[items used'] rest] u']|]]; reflexivity.
      * rewrite skipn_length. lia.
      * lia.
      * intros a s' E. apply (H (firstn (S k) s ++ a)). rewrite <- app_assoc, <- E. symmetry. apply firstn_skipn.
      * exact Ht.
Qed.

(** Loops. *)
Definition more_loops (tail : list atok) (o : option (list loop_item * list atok * bool)) :=
  option_map (fun '(items, rest, u) => (items, rest ++ tail, u)) o.
(** No token behind [s] can be a part of a loop. *)
Definition no_loop_part (t : tt) : Prop := match t with TGroup Brace _ => True | TPunct _ _ => True | _ => False end.

Lemma loops_alike len : forall s t tail n, List.length s <= len -> no_loop_part t ->
  parse_loops P hf (map ann' (s ++ t :: tail)) n =
  (fst (parse_loops P hf (map ann' s) n), more_loops (map ann' (t :: tail)) (snd (parse_loops P hf (map ann' s) n))).
Proof.
  induction len as [|len IH]; intros s t tail n Hlen Ht.
  - destruct s; [|cbn in Hlen; lia]. cbn [app map parse_loops]. unfold ann' at 1. rewrite ann_tok.
    destruct t as [x|c j|l|d ts]; try destruct Ht; try reflexivity.
  - destruct s as [|f r0].
    { cbn [app map parse_loops]. unfold ann' at 1. rewrite ann_tok. destruct t as [x|c j|l|d ts]; try destruct Ht; try reflexivity. }
    cbn [app map parse_loops]. destruct (is_word (txt "for") (a_tok (ann' f))).
    2: { cbn [snd more_loops option_map]. rewrite map_app. reflexivity. }
    assert (Hal : parse_loop_alias P (ann' t) = None).
    { unfold parse_loop_alias, ann'. rewrite ann_tok. destruct t as [x|c j|l|[| | |] ts]; try destruct Ht; reflexivity. }
    assert (Hin : is_word (txt "in") (a_tok (ann' t)) = false).
    { unfold ann'. rewrite ann_tok. destruct t as [x|c j|l|d ts]; try destruct Ht; reflexivity. }
    assert (Hsrc : parse_source_list P hf n (ann' t) = (n, None)).
    { unfold parse_source_list, ann'. rewrite ann_tok. destruct t as [x|c j|l|[| | |] ts]; try destruct Ht; reflexivity. }
    destruct r0 as [|pat [|kw [|src r]]]; cbn [app map].
    + destruct tail as [|t1 [|t2 tail]]; cbn [map]; [reflexivity..|]. rewrite Hal. reflexivity.
    + destruct tail as [|t1 tail]; cbn [map]; [reflexivity|]. rewrite Hin. destruct (parse_loop_alias P (ann' pat)); reflexivity.
    + rewrite Hsrc. destruct (parse_loop_alias P (ann' pat)); [|reflexivity]. destruct (is_word (txt "in") (a_tok (ann' kw))); reflexivity.
    + destruct (parse_loop_alias P (ann' pat)) as [al|]; [|reflexivity]. destruct (is_word (txt "in") (a_tok (ann' kw))); [|reflexivity].
      destruct (parse_source_list P hf n (ann' src)) as [n1 [[vals u]|]]; [|reflexivity].
      rewrite (IH r t tail n1) by (exact Ht || (cbn in Hlen; lia)).
      destruct (parse_loops P hf (map ann' r) n1) as [n3 [[[items rest] u']|]]; reflexivity.
Qed.
Lemma loops_suffix len : forall s n n' items rest u, List.length s <= len -> parse_loops P hf (map ann' s) n = (n', Some (items, rest, u)) ->
  exists a r, s = a ++ r /\ rest = map ann' r.
Proof.
  induction len as [|len IH]; intros s n n' items rest u Hlen H.
  - destruct s; [|cbn in Hlen; lia]. cbn in H. injection H as _ _ <- _. exists [], []. auto.
  - destruct s as [|f r0]; [cbn in H; injection H as _ _ <- _; exists [], []; auto|]. cbn [map parse_loops] in H.
    destruct (is_word _ _); [|injection H as _ _ <- _; exists [], (f :: r0); auto].
    destruct r0 as [|pat [|kw [|src r]]]; cbn [map] in H; try discriminate H.
    destruct (parse_loop_alias _ _); [|discriminate H]. destruct (is_word _ _); [|discriminate H].
    destruct (parse_source_list _ _ _ _) as [n1 [[vals u1]|]]; [|discriminate H].
    destruct (parse_loops P hf (map ann' r) n1) as [n2 [[[items2 rest2] u2]|]] eqn:E; [|discriminate H]. injection H as _ _ <- _.
    apply IH in E as (a & r' & -> & ->); [|cbn in Hlen; lia]. exists (f :: pat :: kw :: src :: a), r'. auto.
Qed.

Definition header_more (tail : list atok) (o : option (option (list loop_item) * option alias_spec * list atok * bool)) :=
  option_map (fun '(loops, spec, rest, u) => (loops, spec, rest ++ tail, u)) o.

(** The header with the comma behind it, and more behind the comma. *)
Lemma header_alike n s tail : stops P s tail -> stops P s [] -> peek_ident P (map ann' tail) = false ->
  parse_header P hf n (map ann' (s ++ comma :: tail)) = header_more (map ann' tail) (parse_header P hf n (map ann' (s ++ [comma]))).
Proof.
  intros H1 H2 Ht. unfold parse_header. rewrite !(loops_alike (List.length s)) by (lia || exact I).
  destruct (parse_loops P hf (map ann' s) n) as [n1 [[[items rest] u]|]] eqn:El; [|reflexivity]. cbn [fst snd more_loops option_map].
  apply (loops_suffix (List.length s)) in El as (a & r & -> & ->); [|lia]. rewrite <- !map_app. rewrite peek_front.
  destruct (peek_ident P (map ann' (r ++ [comma]))).
  - rewrite (spec_alike (List.length r) r tail None None n1); [|lia|exact I| |exact Ht].
    + cbn [fst snd]. destruct (snd (parse_spec P hf (map ann' (r ++ [comma])) None None n1)) as [[[[ds used] l2] u2]|]; reflexivity.
    + intros a' s' ->. split; [apply (H1 (a ++ a'))|apply (H2 (a ++ a'))]; rewrite <- app_assoc; reflexivity.
  - cbn [header_more option_map]. rewrite <- map_app, <- app_assoc. reflexivity.
Qed.

(** The list with and without the comma. *)
Definition ended (s : list tt) (o1 o2 : option (list spec_item * option bool * list atok * bool)) : Prop :=
  match o1 with
  | None => o2 = None
  | Some (items, used, [], u) => o2 = match used with Some false => None | _ => Some (items, Some true, [], u) end
  | Some (items, used, rest, u) => o2 = Some (items, used, rest ++ [cm], u) /\ exists a r, s = a ++ r /\ rest = map ann' r
  end.
Lemma unterminated_suffix a s : unterminated (a ++ s) -> unterminated s.
Proof. intros H b t ->. apply (H (a ++ b)). rewrite app_assoc. reflexivity. Qed.

Lemma ended_suffix a s o1 o2 : ended s o1 o2 -> ended (a ++ s) o1 o2.
Proof.
  unfold ended. destruct o1 as [[[[items used] [|t rest]] u]|]; auto. intros (H & b & r & -> & E). split; [exact H|].
  exists (a ++ b), r. rewrite app_assoc. auto.
Qed.
Lemma ended_cons s d u o1 o2 : ended s o1 o2 ->
  ended s (option_map (fun '(items, used', rest', u') => (d :: items, used', rest', u || u')) o1)
          (option_map (fun '(items, used', rest', u') => (d :: items, used', rest', u || u')) o2).
Proof.
  unfold ended. destruct o1 as [[[[items used] [|t rest]] u1]|]; cbn [option_map].
  - intros ->. destruct used as [[|]|]; reflexivity.
  - intros (-> & H). split; [reflexivity|exact H].
  - intros ->. reflexivity.
Qed.

Lemma spec_ended len : forall s skip used n, List.length s <= len -> match skip with Some k => k <= List.length s | None => True end ->
  (forall a s', s = a ++ s' -> ignores P s' []) -> unterminated s ->
  ended s (snd (parse_spec P hf (map ann' s) skip used n)) (snd (parse_spec P hf (map ann' (s ++ [comma])) skip used n)).
Proof.
  assert (Base : forall used n, ended [] (snd (parse_spec P hf (map ann' []) (Some 0) used n)) (snd (parse_spec P hf (map ann' ([] ++ [comma])) (Some 0) used n))).
  { intros used n. cbn [app]. change (map ann' [comma]) with (ann' comma :: map ann' []). unfold ann' at 2. rewrite at_separator.
    cbn [map parse_spec snd ended peek_ident]. change (is_separator comma) with true. change (is_comma comma) with true. cbv iota.
    destruct used as [[|]|]; reflexivity. }
  induction len as [|len IH]; intros s skip used n Hlen Hk H Hu.
  - destruct s; [|cbn in Hlen; lia]. destruct skip as [[|k]|]; [|cbn in Hk; lia|reflexivity]. apply Base.
  - destruct skip as [k|].
    + rewrite !(parse_spec_skip P hf k). unfold ann'. rewrite !skipn_ann. fold ann'. rewrite !skipn_app.
      replace (k - List.length s) with 0 by lia. rewrite skipn_O. rewrite <- (firstn_skipn k s) in H, Hu.
      rewrite <- (firstn_skipn k s) at 1. apply ended_suffix. apply unterminated_suffix in Hu.
      assert (Hs : forall a s', skipn k s = a ++ s' -> ignores P s' []).
      { intros a s' E. apply (H (firstn k s ++ a)). rewrite <- app_assoc, <- E. reflexivity. }
      assert (Hl : List.length (skipn k s) <= S len) by (rewrite skipn_length; lia). clear Hk H. revert Hs Hl Hu. generalize (skipn k s). clear s Hlen. intros s H Hlen Hu.
      destruct s as [|t r]; [apply Base|].
      cbn [app map]. unfold ann' at 1 3. rewrite !at_separator. destruct (is_separator t) eqn:Et; [|reflexivity].
      destruct (match used with Some u => negb (Bool.eqb u (is_comma t)) | None => false end); [reflexivity|].
      destruct r as [|t2 r]; [specialize (Hu [] t eq_refl); congruence|].
      assert (Ep : peek_ident P (map ann' ((t2 :: r) ++ [comma])) = peek_ident P (map ann' (t2 :: r))) by reflexivity.
      rewrite Ep. destruct (peek_ident P (map ann' (t2 :: r))).
      * apply (ended_suffix [t] (t2 :: r)). apply IH; [cbn in *; lia|exact I| |exact (unterminated_suffix [t] _ Hu)].
        intros a s' E. apply (H (t :: a)). rewrite E. reflexivity.
      * cbn [snd ended map]. split; [rewrite map_app; reflexivity|]. exists [t], (t2 :: r). auto.
    + destruct s as [|t r]; [reflexivity|]. rewrite !parse_spec_item_eq by discriminate.
      rewrite (item_alike n (t :: r) []) by exact H.
      destruct (parse_spec_item P hf n (map ann' (t :: r))) as [n1 [[[d k] u]|]] eqn:Ei; [|reflexivity].
      apply item_within in Ei. destruct k as [|k]; [lia|]. unfold ann'. rewrite !skipn_ann. fold ann'. rewrite !skipn_app.
      replace (S k - List.length (t :: r)) with 0 by lia. rewrite !skipn_O.
      assert (HI : ended (t :: r) (snd (parse_spec P hf (map ann' (skipn (S k) (t :: r))) (Some 0) used n1)) (snd (parse_spec P hf (map ann' (skipn (S k) (t :: r) ++ [comma])) (Some 0) used n1))).
      { rewrite <- (firstn_skipn (S k) (t :: r)) at 1. apply ended_suffix. apply IH.
        - rewrite skipn_length. cbn in *. lia.
        - lia.
        - intros a s' E. apply (H (firstn (S k) (t :: r) ++ a)). rewrite <- app_assoc, <- E. symmetry. apply firstn_skipn.
        - rewrite <- (firstn_skipn (S k) (t :: r)) in Hu. exact (unterminated_suffix _ _ Hu). }
      destruct (parse_spec P hf (map ann' (skipn (S k) (t :: r))) (Some 0) used n1) as [n2 o1].
      destruct (parse_spec P hf (map ann' (skipn (S k) (t :: r) ++ [comma])) (Some 0) used n1) as [n3 o2]. cbn [snd] in *. apply ended_cons, HI.
Qed.

(** ** The macros *)

Lemma header_ended n s : stops P s [] -> unterminated s ->
  match parse_header P hf n (map ann' s) with
  | None => parse_header P hf n (map ann' (s ++ [comma])) = None
  | Some (loops, None, rest, u) => exists a r, s = a ++ r /\ rest = map ann' r /\ parse_header P hf n (map ann' (s ++ [comma])) = Some (loops, None, rest ++ [cm], u)
  | Some (loops, Some spec, [], u) => parse_header P hf n (map ann' (s ++ [comma])) =
      match is_comma_used spec with
      | Some false => None
      | _ => Some (loops, Some {| spec_items := spec_items spec; is_comma_used := Some true |}, [], u)
      end
  | Some (loops, Some spec, rest, u) => exists a r, s = a ++ r /\ rest = map ann' r /\ parse_header P hf n (map ann' (s ++ [comma])) = Some (loops, Some spec, rest ++ [cm], u)
  end.
Proof.
  intros H Hu. unfold parse_header. rewrite (loops_alike (List.length s)) by (lia || exact I).
  destruct (parse_loops P hf (map ann' s) n) as [n1 [[[items rest] u]|]] eqn:El; [|reflexivity]. cbn [fst snd more_loops option_map].
  apply (loops_suffix (List.length s)) in El as (a & r & -> & ->); [|lia]. rewrite <- !map_app.
  assert (Ep : peek_ident P (map ann' (r ++ [comma])) = peek_ident P (map ann' r)) by (destruct r; reflexivity). rewrite Ep.
  destruct (peek_ident P (map ann' r)).
  - assert (Hs := spec_ended (List.length r) r None None n1 ltac:(lia) I ltac:(intros a' s' ->; apply (H (a ++ a')); rewrite <- app_assoc; reflexivity) (unterminated_suffix _ _ Hu)).
    unfold ended in Hs. destruct (snd (parse_spec P hf (map ann' r) None None n1)) as [[[[ds used] [|t rest]] u2]|].
    + rewrite Hs. cbn [is_comma_used spec_items]. destruct used as [[|]|]; reflexivity.
    + destruct Hs as (-> & a' & r' & -> & ->). exists (a ++ a'), r'. rewrite app_assoc. auto.
    + rewrite Hs. reflexivity.
  - exists a, r. repeat split; auto. rewrite map_app. reflexivity.
Qed.

Lemma attr_ended n s item : stops P s [] -> unterminated s ->
  p_ast (parse_attr_macro P hf n (s ++ [comma]) item) =
  Ok (match p_ast (parse_attr_macro P hf n s item) with Ok (Some ast) => with_comma ast | _ => None end).
Proof.
  intros H Hu. pose proof (header_ended n s H Hu) as Hh. unfold parse_attr_macro. unfold ann' in Hh.
  destruct (parse_header P hf n (map (ann P hf) s)) as [[[[loops [spec|]] l] u]|]; [| |rewrite Hh; reflexivity].
  - destruct l as [|t l].
    + rewrite Hh. cbn [toks map skip_separator]. destruct u; [destruct (is_comma_used spec) as [[|]|]; reflexivity|].
      destruct (pre_block P [TGroup Brace item]) as [[[block [|[|j]]] [|]]|]; destruct (is_comma_used spec) as [[|]|] eqn:E; cbn [p_ast syntax_error];
        unfold with_comma; cbn [ast_spec]; rewrite ?E; try reflexivity; cbn [skip_separator toks map]; reflexivity.
    + destruct Hh as (a & r & -> & Hr & ->). rewrite Hr in *. rewrite toks_ann.
      replace (toks (map (ann P hf) r ++ [cm])) with (r ++ [comma]) by (unfold toks; rewrite map_app; fold (toks (map (ann P hf) r)); rewrite toks_ann; reflexivity).
      apply unterminated_suffix in Hu. destruct r as [|t1 r]; [discriminate Hr|]. cbn [app skip_separator].
      destruct (is_separator t1) eqn:E1; [|reflexivity]. destruct r as [|t2 r]; [specialize (Hu [] t1 eq_refl); congruence|]. reflexivity.
  - destruct Hh as (a & r & -> & -> & ->). rewrite toks_ann.
    replace (toks (map (ann P hf) r ++ [cm])) with (r ++ [comma]) by (unfold toks; rewrite map_app; fold (toks (map (ann P hf) r)); rewrite toks_ann; reflexivity).
    destruct r as [|t r].
    + cbn [app skip_separator]. change (is_separator comma) with true. cbv iota. destruct loops; destruct u; cbn [p_ast syntax_error];
        try reflexivity; destruct (pre_block P [TGroup Brace item]) as [[[block [|[|j]]] [|]]|]; reflexivity.
    + cbn [app skip_separator]. destruct (is_separator t), loops; try reflexivity; destruct r; reflexivity.
Qed.

Lemma block_front l' spec inner after : braced P -> l' <> [] ->
  match pre_block P (l' ++ TGroup Brace inner :: after) with
  | None => True
  | Some (block, k, u2) =>
      match skipn k (l' ++ TGroup Brace inner :: after) with
      | [] => False
      | t :: r => if is_separator t && negb (trailing_mixed t spec) then r <> [] else True
      end
  end.
Proof.
  intros (Hb & _) Hl. destruct (pre_block P (l' ++ TGroup Brace inner :: after)) as [[[block k] u2]|] eqn:E; [|exact I].
  apply Hb in E as (-> & inner' & r & E). destruct l' as [|t l']; [congruence|]. cbn [app skipn]. destruct l' as [|t2 l']; [exact I|].
  cbn [app]. destruct (_ && _); [|exact I]. destruct l'; discriminate.
Qed.

Lemma func_attr n s item after : braced P -> stops P s (TGroup Brace item :: after) -> stops P s [] -> unterminated s ->
  after = [] \/ (exists j, after = [TPunct 44%N j]) ->
  p_ast (parse_func_macro P hf n (s ++ comma :: TGroup Brace item :: after)) = p_ast (parse_attr_macro P hf n (s ++ [comma]) item).
Proof.
  intros Hb H1 H2 Hu Ha. unfold parse_func_macro, parse_attr_macro. fold ann'.
  rewrite (header_alike n s (TGroup Brace item :: after) H1 H2 eq_refl). pose proof (header_ended n s H2 Hu) as Hh.
  assert (Hl : forall loops spec l u, parse_header P hf n (map ann' (s ++ [comma])) = Some (loops, spec, l, u) ->
            (l = [] /\ exists sp, spec = Some sp /\ is_comma_used sp = Some true) \/
            (exists l', l' <> [] /\ l = map ann' l' /\ skip_separator loops spec l' <> Some [])).
  { intros loops spec l u E. rewrite E in Hh. destruct (parse_header P hf n (map ann' s)) as [[[[loops0 [spec0|]] [|t l0]] u0]|]; [| | | |discriminate Hh].
    - destruct (is_comma_used spec0) as [[|]|]; [|discriminate Hh|]; injection Hh as _ -> -> _; left; (split; [reflexivity|]); eexists; split; reflexivity.
    - destruct Hh as (a & r & -> & Hr & Hh). rewrite Hr in Hh. injection Hh as -> -> -> _. right. exists (r ++ [comma]). split; [destruct r; discriminate|].
      split; [rewrite map_app; reflexivity|]. destruct r as [|t1 r]; [discriminate Hr|]. apply unterminated_suffix in Hu.
      cbn [app skip_separator]. destruct (is_separator t1); [|discriminate]. destruct r; discriminate.
    - destruct Hh as (a & r & -> & Hr & Hh). injection Hh as -> -> -> _. right. exists [comma]. split; [discriminate|]. split; [reflexivity|].
      cbn [skip_separator]. change (is_separator comma) with true. cbv iota. destruct loops0; discriminate.
    - destruct Hh as (a & r & -> & Hr & Hh). rewrite Hr in Hh. injection Hh as -> -> -> _. right. exists (r ++ [comma]). split; [destruct r; discriminate|].
      split; [rewrite map_app; reflexivity|]. destruct r as [|t1 r]; [discriminate Hr|].
      cbn [app skip_separator]. destruct (is_separator t1), loops0; discriminate. }
  clear Hh. destruct (parse_header P hf n (map ann' (s ++ [comma]))) as [[[[loops spec] l] u1]|]; [|reflexivity].
  cbn [header_more option_map]. specialize (Hl _ _ _ _ eq_refl).
  destruct Hl as [(-> & sp & -> & Hc)|(l' & Hn & -> & Hs)].
  - cbn [app toks map skip_separator]. fold (toks (map ann' after)). unfold ann'. rewrite toks_ann. rewrite (ann_tok P hf (TGroup Brace item)).
    rewrite (proj2 Hb item after).
    destruct (pre_block P [TGroup Brace item]) as [[[block k] u2]|] eqn:Eb; [|destruct u1; reflexivity].
    pose proof (proj1 (proj1 Hb _ _ _ _ Eb)) as ->. cbn [skipn].
    destruct Ha as [-> |(j & ->)].
    + destruct u1; [reflexivity|]. destruct u2; reflexivity.
    + cbn [trailing_mixed]. rewrite Hc. change (is_separator (TPunct 44%N j)) with true. change (is_comma (TPunct 44%N j)) with true. cbn [xorb negb andb].
      destruct u1; [reflexivity|]. destruct u2; reflexivity.
  - rewrite <- map_app. unfold ann'. rewrite !toks_ann.
    pose proof (block_front l' spec item after Hb Hn) as Hf.
    assert (E : p_ast (match skip_separator loops spec l' with
      | Some [] => if u1 then syntax_error (Some (uses_semicolons spec)) else match pre_block P [TGroup Brace item] with
               | Some (block, 1, false) => {| p_scope := Some (uses_semicolons spec); p_ast := Ok (Some {| ast_loops := loops; ast_spec := spec; ast_block := block |}) |}
               | _ => syntax_error (Some (uses_semicolons spec)) end
      | _ => syntax_error (Some (uses_semicolons spec)) end) = Ok None).
    { destruct (skip_separator loops spec l') as [[|t r]|]; [congruence|reflexivity|reflexivity]. }
    rewrite E. destruct (pre_block P (l' ++ TGroup Brace item :: after)) as [[[block k] u2]|]; [|reflexivity].
    destruct (skipn k (l' ++ TGroup Brace item :: after)) as [|t r]; [destruct Hf|].
    destruct (_ && _); [|reflexivity]. destruct r; [congruence|reflexivity].
Qed.

(** Without definitions. *)
Lemma func_attr_loops n s item after ast : braced P -> after = [] \/ (exists t, after = [t] /\ is_separator t = true) -> ast_spec ast = None ->
  (p_ast (parse_func_macro P hf n (s ++ TGroup Brace item :: after)) = Ok (Some ast) <-> p_ast (parse_attr_macro P hf n s item) = Ok (Some ast)).
Proof.
  intros Hb Ha Hast. unfold parse_func_macro, parse_attr_macro. fold ann'. unfold parse_header.
  rewrite (loops_alike (List.length s)) by (lia || exact I).
  destruct (parse_loops P hf (map ann' s) n) as [n1 [[[items rest] u]|]] eqn:El; [|reflexivity]. cbn [fst snd more_loops option_map].
  apply (loops_suffix (List.length s)) in El as (a & r & -> & ->); [|lia]. rewrite <- map_app.
  assert (Ep : peek_ident P (map ann' (r ++ TGroup Brace item :: after)) = peek_ident P (map ann' r)) by (destruct r; reflexivity). rewrite Ep.
  set (loops := match items with [] => None | _ => Some items end).
  destruct (peek_ident P (map ann' r)).
  - split.
    + destruct (snd (parse_spec P hf (map ann' (r ++ TGroup Brace item :: after)) None None n1)) as [[[[ds used] l2] u2]|]; [|discriminate].
      destruct (pre_block P (toks l2)) as [[[block k] u3]|]; [|discriminate]. intros H. exfalso.
      destruct (skipn k (toks l2)) as [|t l3].
      * destruct (_ || _); [discriminate|]. injection H as <-. discriminate.
      * destruct (_ && _); [|discriminate]. destruct l3; [|discriminate]. destruct (_ || _); [discriminate|]. injection H as <-. discriminate.
    + destruct (snd (parse_spec P hf (map ann' r) None None n1)) as [[[[ds used] l2] u2]|]; [|discriminate]. intros H. exfalso.
      destruct (skip_separator _ _ _) as [[|t l3]|]; try discriminate. destruct (u || u2); [discriminate|].
      destruct (pre_block P [TGroup Brace item]) as [[[block [|[|j]]] [|]]|]; try discriminate. injection H as <-. discriminate.
  - unfold ann'. rewrite !toks_ann. destruct r as [|t r].
    + cbn [app skip_separator]. rewrite (proj2 Hb item after). destruct (pre_block P [TGroup Brace item]) as [[[block k] u2]|] eqn:Eb; [|destruct u; split; discriminate].
      pose proof (proj1 (proj1 Hb _ _ _ _ Eb)) as ->. cbn [skipn trailing_mixed]. destruct Ha as [-> |(t & -> & Ht)].
      * destruct u; [split; discriminate|]. destruct u2; [split; discriminate|]. reflexivity.
      * rewrite Ht. cbn [negb andb]. destruct u; [split; discriminate|]. destruct u2; [split; discriminate|]. reflexivity.
    + pose proof (block_front (t :: r) None item after Hb ltac:(discriminate)) as Hf. split.
      * destruct (pre_block P ((t :: r) ++ TGroup Brace item :: after)) as [[[block k] u2]|]; [|discriminate].
        destruct (skipn k ((t :: r) ++ TGroup Brace item :: after)) as [|t2 r2]; [destruct Hf|].
        destruct (_ && _); [|discriminate]. destruct r2; [congruence|discriminate].
      * cbn [skip_separator]. destruct (is_separator t), loops; discriminate.
Qed.
End Forms.

(** ** Outputs *)
Section Outputs.
Context (O : oracles) (P : parsers) (Y : syntax).

Lemma quiet_outcome p q inv inv' : p_ast (inv_parsed inv) = p_ast (inv_parsed inv') -> inv_seed inv = inv_seed inv' -> inv_first_id inv = inv_first_id inv' ->
  raised inv = [] -> raised inv' = [] -> outcome O Y p inv = outcome O Y q inv'.
Proof.
  intros Ha Hs Hi Hr Hr'. unfold outcome. rewrite <- Ha, <- Hs, <- Hi. destruct (p_ast (inv_parsed inv)) as [[ast|]| |]; auto.
  assert (Ee : forall env, execute O Y env (thread_for p inv) ast = execute O Y env (thread_for q inv') ast).
  { intros env. unfold execute. destruct (Expand.expand ast) as [rws| |]; auto. cbn [bind].
    assert (Em : mapM (execute_block_rewrite O Y env (thread_for p inv)) rws = mapM (execute_block_rewrite O Y env (thread_for q inv')) rws).
    { induction rws as [|rw rws IH]; auto. cbn [mapM]. rewrite IH.
      replace (execute_block_rewrite O Y env (thread_for p inv) rw) with (execute_block_rewrite O Y env (thread_for q inv') rw); auto.
      unfold execute_block_rewrite. destruct (Eval.make_substitutions O env (fst rw)); auto. cbn [bind].
      unfold substitute. destruct (AliasSubstitution.visit_block _ _ _ _); auto. cbn [bind]. unfold scope_emit, thread_for, emit. cbn [warnings].
      rewrite Hr, Hr'. reflexivity. }
    rewrite Em. reflexivity. }
  rewrite Ee. reflexivity.
Qed.
Lemma failed_outcome p q inv inv' : p_ast (inv_parsed inv) = Ok None -> p_ast (inv_parsed inv') = Ok None -> outcome O Y p inv = outcome O Y q inv'.
Proof. intros H H'. unfold outcome. rewrite H, H'. reflexivity. Qed.

Lemma expand_uses_outcomes u r : expand_uses O P Y (u :: r) = map (fun v => outcome O Y (prefix_of (u_source u)) (invocation_for O P v)) (u :: r).
Proof.
  unfold expand_uses. cbn [map]. rewrite run_fresh. cbn [snd].
  change (invocation_for O P u :: map (invocation_for O P) r) with (map (invocation_for O P) (u :: r)). rewrite map_map. reflexivity.
Qed.

Lemma renamed_invocation u u' : renamed_use u u' -> inv_parsed (invocation_for O P u) = inv_parsed (invocation_for O P u') /\
  inv_seed (invocation_for O P u) = inv_seed (invocation_for O P u') /\ inv_first_id (invocation_for O P u) = inv_first_id (invocation_for O P u').
Proof.
  destruct u as [s a b c], u' as [s' a' b' c']. intros (H & H1 & H2 & H3). cbn in *. subst. split; [|split; reflexivity]. destruct H; reflexivity.
Qed.
Lemma renamed_outcome p u u' : renamed_use u u' -> outcome O Y p (invocation_for O P u) = outcome O Y p (invocation_for O P u').
Proof.
  intros H. apply renamed_invocation in H as (H1 & H2 & H3). unfold outcome, thread_for, raised. rewrite H1, H2, H3. reflexivity.
Qed.

Lemma renamed_later u r r' : Forall2 renamed_use r r' -> expand_uses O P Y (u :: r) = expand_uses O P Y (u :: r').
Proof.
  intros H. rewrite !expand_uses_outcomes. cbn [map]. f_equal. induction H as [|v v' r r' Hv _ IH]; [reflexivity|]. cbn [map]. rewrite IH, (renamed_outcome _ _ _ Hv). reflexivity.
Qed.
Lemma nth_renamed uses uses' i u : Forall2 renamed_use uses uses' -> nth_error uses i = Some u -> exists u', nth_error uses' i = Some u' /\ renamed_use u u'.
Proof.
  intros H. revert i. induction H as [|v v' r r' Hv _ IH]; intros [|i] Hi; try discriminate Hi; cbn [nth_error] in *; [injection Hi as <-; eauto|eauto].
Qed.
Lemma renamed_quiet uses uses' i u : Forall2 renamed_use uses uses' -> nth_error uses i = Some u -> raised (invocation_for O P u) = [] ->
  nth_error (expand_uses O P Y uses) i = nth_error (expand_uses O P Y uses') i.
Proof.
  intros H Hi Hr. destruct (nth_renamed _ _ _ _ H Hi) as (u' & Hi' & Hu). rewrite (use_output O P Y _ _ _ Hi), (use_output O P Y _ _ _ Hi').
  apply renamed_invocation in Hu as (H1 & H2 & H3). f_equal. apply quiet_outcome; auto; [rewrite H1; reflexivity|]. unfold raised in *. rewrite <- H1. exact Hr.
Qed.

(** The prefix is seen in the warnings only. *)
Lemma mapM_last {A B C} (g : A -> res B) (h : B -> C) l : mapM (fun x => let! b := g x in Ok (h b)) l = (let! bs := mapM g l in Ok (map h bs)).
Proof.
  induction l as [|x r IH]; [reflexivity|]. cbn [mapM]. rewrite IH. destruct (g x); [|reflexivity|reflexivity]. cbn [bind]. destruct (mapM g r); reflexivity.
Qed.
Definition blocks (env : environment) (ast : raw_ast (list stmt)) : res (list (list stmt)) :=
  let! rws := Expand.expand ast in
  mapM (fun rw : block_rewrite (list stmt) => let! subst := Eval.make_substitutions O env (fst rw) in AliasSubstitution.visit_block O (fun x => assoc_str x subst) (reparse Y) (snd rw)) rws.
Lemma execute_blocks env t ast : execute O Y env t ast =
  (let! bs := blocks env ast in Ok (concat (map (fun b => forest_tokens (scope_emit t (as_forest Y (block_tokens b)))) bs))).
Proof.
  unfold execute, blocks. destruct (Expand.expand ast) as [rws| |]; [|reflexivity|reflexivity]. cbn [bind].
  set (g := fun rw : block_rewrite (list stmt) => let! subst := Eval.make_substitutions O env (fst rw) in AliasSubstitution.visit_block O (fun x => assoc_str x subst) (reparse Y) (snd rw)).
  set (h := fun b : list stmt => forest_tokens (scope_emit t (as_forest Y (block_tokens b)))).
  assert (E : mapM (execute_block_rewrite O Y env t) rws = (let! bs := mapM g rws in Ok (map h bs))).
  { rewrite <- mapM_last. induction rws as [|rw rws IH]; [reflexivity|]. cbn [mapM]. rewrite IH. f_equal. unfold g, h, execute_block_rewrite, substitute.
    destruct (Eval.make_substitutions O env (fst rw)); reflexivity. }
  rewrite E. fold g.
  destruct (mapM g rws); reflexivity.
Qed.
Lemma outcome_prefix inv : (exists o, (forall p, outcome O Y p inv = o) /\ forall ts, o <> Code ts) \/
  (exists bs, blocks_of O Y inv bs /\ forall p, outcome O Y p inv = Code (concat (map (emitted Y p (raised inv)) bs))).
Proof.
  destruct (outcome O Y [] inv) as [ts| |e|x] eqn:E.
  1: { right. apply outcome_code in E as (bs & Hb & _). exists bs. split; [exact Hb|]. intros p. apply outcome_code. eauto. }
  all: left; exists (outcome O Y [] inv); (split; [|rewrite E; discriminate]); intros p; unfold outcome in *; destruct (p_ast (inv_parsed inv)) as [[ast|]| |]; try reflexivity;
    rewrite !execute_blocks in *; destruct (blocks _ ast); cbn [bind] in *; try reflexivity; discriminate E.
Qed.
Lemma renamed_any uses uses' i u : Forall2 renamed_use uses uses' -> nth_error uses i = Some u ->
  (exists o, nth_error (expand_uses O P Y uses) i = Some o /\ nth_error (expand_uses O P Y uses') i = Some o /\ forall ts, o <> Code ts) \/
  (exists bs, blocks_of O Y (invocation_for O P u) bs /\ forall l, l = uses \/ l = uses' ->
     nth_error (expand_uses O P Y l) i = Some (Code (concat (map (fun b => forest_tokens (emit
       {| warnings := raised (invocation_for O P u); borrowed := 1; s_prefix := prefix_of (u_source (hd u l)) |}
       (as_forest Y (block_tokens b)))) bs)))).
Proof.
  intros H Hi. destruct (nth_renamed _ _ _ _ H Hi) as (u' & Hi' & Hu). rewrite (use_output O P Y _ _ _ Hi), (use_output O P Y _ _ _ Hi').
  rewrite <- (renamed_outcome _ _ _ Hu). destruct (outcome_prefix (invocation_for O P u)) as [(o & Ho & Hn)|(bs & Hb & Ho)].
  - left. exists o. rewrite !Ho. auto.
  - right. exists bs. split; [exact Hb|]. intros l [-> | ->].
    + rewrite (use_output O P Y _ _ _ Hi), Ho. reflexivity.
    + rewrite (use_output O P Y _ _ _ Hi'), <- (renamed_outcome _ _ _ Hu), Ho. destruct uses'; [destruct i; discriminate Hi'|]. reflexivity.
Qed.

(** An attribute and a block. *)
Lemma attr_use uses1 uses2 seed k n s item after : within P -> braced P -> stops P s (TGroup Brace item :: after) -> stops P s [] -> unterminated s ->
  after = [] \/ (exists j, after = [TPunct 44%N j]) ->
  let u src := {| u_source := src; u_seed := seed; u_first_id := k; u_next_id := n |} in
  let f := u (Compose (s ++ comma :: TGroup Brace item :: after)) in let a := u (ComposeItem (s ++ [comma]) item) in
  nth_error (expand_uses O P Y (uses1 ++ f :: uses2)) (List.length uses1) = nth_error (expand_uses O P Y (uses1 ++ a :: uses2)) (List.length uses1) /\
  (uses1 <> [] -> expand_uses O P Y (uses1 ++ f :: uses2) = expand_uses O P Y (uses1 ++ a :: uses2)).
Proof.
  intros Hw Hb H1 H2 Hu Ha u f a. pose proof (func_attr P (known O) Hw n s item after Hb H1 H2 Hu Ha) as Hp.
  assert (Ho : forall p q, outcome O Y p (invocation_for O P f) = outcome O Y q (invocation_for O P a)).
  { intros p q. destruct (p_ast (parse_attr_macro P (known O) n (s ++ [comma]) item)) as [[ast|]|e|x] eqn:E.
    - apply quiet_outcome; try reflexivity; [exact (eq_trans Hp (eq_sym E))| |].
      + destruct (raised_iff O P f ast Hp) as [((sp & Hs & Hc) & _)|(_ & Hr)]; [exfalso|exact Hr].
        pose proof (attr_ended P (known O) Hw n s item H2 Hu) as Hd. rewrite E in Hd.
        destruct (p_ast (parse_attr_macro P (known O) n s item)) as [[ast0|]| |]; try discriminate Hd. injection Hd as Hd. unfold with_comma in Hd.
        destruct (ast_spec ast0) as [sp0|]; [|discriminate]. destruct (is_comma_used sp0) as [[|]|]; try discriminate Hd; injection Hd as ->; cbn in Hs; injection Hs as <-; discriminate Hc.
      + destruct (raised_iff O P a ast E) as [((sp & Hs & Hc) & _)|(_ & Hr)]; [exfalso|exact Hr].
        pose proof (attr_ended P (known O) Hw n s item H2 Hu) as Hd. rewrite E in Hd.
        destruct (p_ast (parse_attr_macro P (known O) n s item)) as [[ast0|]| |]; try discriminate Hd. injection Hd as Hd. unfold with_comma in Hd.
        destruct (ast_spec ast0) as [sp0|]; [|discriminate]. destruct (is_comma_used sp0) as [[|]|]; try discriminate Hd; injection Hd as ->; cbn in Hs; injection Hs as <-; discriminate Hc.
    - apply failed_outcome; [exact Hp|exact E].
    - exfalso. rewrite (attr_ended P (known O) Hw n s item H2 Hu) in E. discriminate.
    - exfalso. rewrite (attr_ended P (known O) Hw n s item H2 Hu) in E. discriminate. }
  assert (Hn : forall v, nth_error (uses1 ++ v :: uses2) (List.length uses1) = Some v).
  { intros v. rewrite nth_error_app2 by lia. rewrite Nat.sub_diag. reflexivity. }
  split.
  - rewrite (use_output O P Y _ _ _ (Hn f)), (use_output O P Y _ _ _ (Hn a)). f_equal. apply Ho.
  - intros Hne. destruct uses1 as [|v uses1]; [congruence|]. cbn [app]. rewrite !expand_uses_outcomes. cbn [map]. f_equal. rewrite !map_app. cbn [map]. rewrite (Ho _ (prefix_of (u_source v))). reflexivity.
Qed.
End Outputs.
