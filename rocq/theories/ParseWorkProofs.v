(** Proofs for C79: the counting parser is the parser, and it counts few. *)
From Coq Require Import String.
From Verif Require Import Base BaseFacts Token Types Values Ast Item Interpreter Parse ParseWork Macro SpecSize.
Open Scope list_scope.

Section Work.
Context (P : parsers) (hf : str -> bool).

(** ** The same *)
Definition proj {A} (p : work * A) : N * A := (fst (fst p), snd p).
Definition same (t : wtok) : Prop :=
  (forall w, a_args (w_plain t) (fst w) = proj (w_args t w)) /\
  (forall w, a_tuple (w_plain t) (fst w) = proj (w_tuple t w)).
Definition plain (l : list wtok) : list atok := map w_plain l.

Lemma toks_plain l : toks (plain l) = wtoks l.
Proof. unfold toks, plain, wtoks. rewrite map_map. reflexivity. Qed.
Lemma plain_skipn k l : plain (skipn k l) = skipn k (plain l).
Proof. unfold plain. symmetry. apply skipn_map. Qed.
Lemma value_same term w ts : parse_value P term (fst w) ts = proj (wparse_value P term w ts).
Proof. unfold wparse_value, proj. destruct (parse_value P term (fst w) ts). reflexivity. Qed.
Lemma call_same w l : Forall same l ->
  parse_call P hf (fst w) (plain l) = match wparse_call P hf w l with Some (w', r) => Some (fst w', r) | None => None end.
Proof.
  intros Hl. destruct l as [|f [|g l]]; cbn; try reflexivity.
  { unfold w_tok. destruct (w_plain f) as [[]]; reflexivity. }
  inversion Hl as [|? ? _ Hl']; subst. inversion Hl' as [|? ? (Ha & _) _]; subst. specialize (Ha w).
  unfold w_tok. destruct (w_plain f) as [[x|c j|lt|d ts] f1 f2 f3]; cbn [a_tok]; try reflexivity.
  destruct (w_plain g) as [[y|c j|lt|[| | |] ts] g1 g2 g3]; cbn [a_tok]; try reflexivity.
  destruct (ident_allowed P x && hf x); [|reflexivity]. cbn [a_args] in *. rewrite Ha. unfold proj.
  destruct (w_args g w) as [[n1 c] args]. reflexivity.
Qed.
Lemma expr_same w l : Forall same l -> parse_expr P hf (fst w) (plain l) = proj (wparse_expr P hf w l).
Proof.
  intros Hl. unfold parse_expr, wparse_expr. rewrite (call_same _ _ Hl).
  destruct (wparse_call P hf w l) as [[w' [e k]]|]; [reflexivity|]. rewrite toks_plain. apply value_same.
Qed.

Lemma terminated_same {A} (item : N -> list atok -> N * option (A * nat)) witem :
  (forall w l, Forall same l -> item (fst w) (plain l) = proj (witem w l)) ->
  forall l, Forall same l -> forall skip w,
  parse_terminated item (plain l) skip (fst w) = proj (wparse_terminated witem l skip w).
Proof.
  intros Hitem l Hl. induction Hl as [|t r Ht Hr IH]; intros skip w; [reflexivity|].
  cbn [plain map parse_terminated wparse_terminated]. fold (plain r). change (a_tok (w_plain t)) with (w_tok t).
  destruct skip as [[|k]|].
  - destruct (is_comma (w_tok t)); [apply IH|reflexivity].
  - apply IH.
  - change (w_plain t :: plain r) with (plain (t :: r)). rewrite (Hitem w (t :: r) (Forall_cons _ Ht Hr)).
    destruct (witem w (t :: r)) as [w1 [[a k]|]]; unfold proj at 1; cbn [fst snd]; [|reflexivity].
    destruct k as [|k].
    + destruct (is_comma (w_tok t)); [|reflexivity]. rewrite IH. unfold proj at 1.
      destruct (wparse_terminated witem r None w1). reflexivity.
    + rewrite IH. unfold proj at 1. destruct (wparse_terminated witem r (Some k) w1). reflexivity.
Qed.

Lemma until_same term l : plain (wuntil term l) = auntil term (plain l).
Proof.
  induction l as [|t r IH]; [reflexivity|]. cbn. change (a_tok (w_plain t)) with (w_tok t).
  destruct (term (w_tok t)); [reflexivity|]. cbn [plain map]. f_equal. exact IH.
Qed.
Lemma until_Forall (Q : wtok -> Prop) term l : Forall Q l -> Forall Q (wuntil term l).
Proof. induction 1; cbn; [constructor|]. destruct (term (w_tok x)); constructor; assumption. Qed.

Lemma args_same l w : Forall same l -> parse_args P hf (plain l) (fst w) = proj (wparse_args P hf l w).
Proof.
  intros Hl. unfold parse_args, wparse_args.
  rewrite (terminated_same (parse_arg P hf) (wparse_arg P hf)); [|clear|exact Hl].
  - destruct (wparse_terminated (wparse_arg P hf) l None w) as [w' [as_|]]; reflexivity.
  - intros w l Hl. unfold parse_arg, wparse_arg. rewrite <- until_same.
    rewrite expr_same by (apply until_Forall; exact Hl).
    destruct (wparse_expr P hf w (wuntil is_comma l)) as [w' [[e k] u]]. unfold proj. cbn [fst snd].
    rewrite <- plain_skipn. unfold plain. rewrite map_length. f_equal.
    destruct (skipn k (wuntil is_comma l)); reflexivity.
Qed.
Lemma tuple_value_same w l : Forall same l -> parse_tuple_value P hf (fst w) (plain l) = proj (wparse_tuple_value P hf w l).
Proof.
  intros Hl. unfold parse_tuple_value, wparse_tuple_value.
  assert (He : match parse_expr P hf (fst w) (plain l) with (n', (e, k, u)) => (n', Some (TVValue e, u, k)) end =
    proj match wparse_expr P hf w l with (w', (e, k, u)) => (w', Some (TVValue e, u, k)) end).
  { rewrite (expr_same _ _ Hl). destruct (wparse_expr P hf w l) as [w' [[e k] u]]. reflexivity. }
  destruct l as [|g r]; [exact He|]. inversion Hl as [|? ? (_ & Ht) _]; subst. specialize (Ht w).
  cbn [plain map] in *. unfold w_tok. destruct (w_plain g) as [[x|c j|lt|[| | |] ts] g1 g2 g3]; cbn [a_tok a_tuple] in *; try exact He.
  rewrite Ht. unfold proj at 1. destruct (w_tuple g w) as [w' [[t u]|]]; reflexivity.
Qed.
Lemma tuple_same l w : Forall same l -> parse_tuple P hf (plain l) (fst w) = proj (wparse_tuple P hf l w).
Proof.
  intros Hl. unfold parse_tuple, wparse_tuple.
  rewrite (terminated_same _ (wparse_tuple_value P hf) tuple_value_same _ Hl).
  destruct (wparse_terminated (wparse_tuple_value P hf) l None w) as [w' o]. reflexivity.
Qed.
Lemma wann_plain t : w_plain (wann P hf t) = ann P hf t.
Proof. destruct t as [x|c j|l|[| | |] ts]; reflexivity. Qed.
Lemma wanns_plain ts : plain (map (wann P hf) ts) = map (ann P hf) ts.
Proof. unfold plain. rewrite map_map. apply map_ext. exact wann_plain. Qed.
Lemma wann_same t : same (wann P hf t).
Proof.
  induction t as [x|c j|l|d ts IH] using tt_ind'; try (split; reflexivity).
  destruct d; try (split; reflexivity).
  assert (Hs : Forall same (map (wann P hf) ts)) by (clear - IH; induction IH; constructor; auto).
  split; intros w; cbn [wann w_plain w_args w_tuple ann a_args a_tuple]; rewrite <- wanns_plain;
    [apply args_same|apply tuple_same]; exact Hs.
Qed.
Lemma wanns_same ts : Forall same (map (wann P hf) ts).
Proof. induction ts; constructor; auto. apply wann_same. Qed.

Lemma spec_item_same w l : Forall same l -> parse_spec_item P hf (fst w) (plain l) = proj (wparse_spec_item P hf w l).
Proof.
  intros Hl. destruct l as [|f [|eq r]]; cbn; try reflexivity.
  { unfold w_tok. destruct (w_plain f) as [[]]; reflexivity. }
  unfold w_tok. destruct (w_plain f) as [[x|c j|lt|d ts] f1 f2 f3]; cbn [a_tok]; try reflexivity.
  destruct (ident_allowed P x && is_equals (a_tok (w_plain eq))); [|reflexivity]. fold (plain r).
  rewrite expr_same by (inversion Hl as [|? ? _ Hl']; inversion Hl'; assumption).
  destruct (wparse_expr P hf w r) as [w' [[e k] u]]. unfold proj. cbn [fst snd]. rewrite <- plain_skipn, toks_plain. reflexivity.
Qed.
Definition spec_plain (o : option (list spec_item * option bool * list wtok * bool)) :=
  option_map (fun '(items, used, rest, u) => (items, used, plain rest, u)) o.
Lemma spec_same l : Forall same l -> forall skip used w,
  parse_spec P hf (plain l) skip used (fst w) =
  (fst (fst (wparse_spec P hf l skip used w)), spec_plain (snd (wparse_spec P hf l skip used w))).
Proof.
  induction 1 as [|t r Ht Hr IH]; intros skip used w; [destruct skip as [[|k]|]; reflexivity|].
  cbn [plain map parse_spec wparse_spec]. fold (plain r). change (map w_plain r) with (plain r). change (a_tok (w_plain t)) with (w_tok t).
  destruct skip as [[|k]|]; [|apply IH|].
  - destruct (is_separator (w_tok t)); [|reflexivity].
    destruct (match used with Some u => _ | None => _ end); [reflexivity|].
    destruct (peek_ident P (plain r)); [apply IH|reflexivity].
  - change (w_plain t :: plain r) with (plain (t :: r)). rewrite (spec_item_same w (t :: r) (Forall_cons _ Ht Hr)).
    destruct (wparse_spec_item P hf w (t :: r)) as [w1 [[[item [|k]] u]|]]; unfold proj; cbn [fst snd]; try reflexivity.
    rewrite IH. destruct (wparse_spec P hf r (Some k) used w1) as [w2 [[[[items used'] rest'] u']|]]; reflexivity.
Qed.
Lemma source_value_same w l : Forall same l -> parse_source_value P hf (fst w) (plain l) = proj (wparse_source_value P hf w l).
Proof.
  intros Hl. unfold parse_source_value, wparse_source_value.
  assert (He : forall w, match parse_expr P hf (fst w) (plain l) with (n', (e, k, u)) => (n', Some (LSValue e, u, k)) end =
    proj match wparse_expr P hf w l with (w', (e, k, u)) => (w', Some (LSValue e, u, k)) end).
  { intros w'. rewrite (expr_same _ _ Hl). destruct (wparse_expr P hf w' l) as [w2 [[e k] u]]. reflexivity. }
  destruct l as [|g r]; [exact (He w)|]. inversion Hl as [|? ? (_ & Ht) _]; subst. specialize (Ht w).
  cbn [plain map] in *. unfold w_tok. destruct (w_plain g) as [[x|c j|lt|[| | |] ts] g1 g2 g3]; cbn [a_tok a_tuple] in *; try exact (He w).
  rewrite Ht. unfold proj at 1. destruct (w_tuple g w) as [w' [[t u]|]]; [reflexivity|]. exact (He w').
Qed.
Lemma source_list_same w t : parse_source_list P hf (fst w) (w_plain t) = proj (wparse_source_list P hf w t).
Proof.
  unfold parse_source_list, wparse_source_list, w_tok. destruct (a_tok (w_plain t)) as [x|c j|lt|[| | |] ts]; try reflexivity.
  rewrite <- wanns_plain, (terminated_same _ _ source_value_same _ (wanns_same ts)). unfold proj at 1.
  destruct (wparse_terminated (wparse_source_value P hf) (map (wann P hf) ts) None w). reflexivity.
Qed.
Definition loops_plain (o : option (list loop_item * list wtok * bool)) :=
  option_map (fun '(items, rest, u) => (items, plain rest, u)) o.
Lemma loops_same l : forall w,
  parse_loops P hf (plain l) (fst w) = (fst (fst (wparse_loops P hf l w)), loops_plain (snd (wparse_loops P hf l w))).
Proof.
  remember (List.length l) as len eqn:Hlen. assert (Hle : List.length l <= len) by lia. clear Hlen. revert l Hle.
  induction len as [|len IH]; intros l Hle w.
  - destruct l; [reflexivity|cbn in Hle; lia].
  - destruct l as [|f r0]; [reflexivity|].
    cbn [plain map parse_loops wparse_loops]. change (a_tok (w_plain f)) with (w_tok f).
    destruct (is_word (txt "for") (w_tok f)); [|reflexivity].
    destruct r0 as [|pat [|kw [|src r]]]; try reflexivity. cbn [map].
    destruct (parse_loop_alias P (w_plain pat)) as [al|]; [|reflexivity].
    change (a_tok (w_plain kw)) with (w_tok kw). destruct (is_word (txt "in") (w_tok kw)); [|reflexivity].
    rewrite source_list_same. unfold proj. destruct (wparse_source_list P hf w src) as [w1 [[vals u]|]]; cbn [fst snd]; [|reflexivity].
    change (map w_plain r) with (plain r). rewrite IH by (cbn in Hle; lia).
    destruct (wparse_loops P hf r w1) as [w2 [[[items rest'] u']|]]; reflexivity.
Qed.
Lemma loops_rest l : forall w w' items rest u, Forall same l -> wparse_loops P hf l w = (w', Some (items, rest, u)) -> Forall same rest.
Proof.
  remember (List.length l) as len eqn:Hlen. assert (Hle : List.length l <= len) by lia. clear Hlen. revert l Hle.
  induction len as [|len IH]; intros l Hle w w' items rest u Hl H.
  - destruct l; [|cbn in Hle; lia]. injection H as <- <- <- <-. constructor.
  - destruct l as [|f r0]; [injection H as <- <- <- <-; constructor|]. cbn [wparse_loops] in H.
    destruct (is_word (txt "for") (w_tok f)); [|injection H as <- <- <- <-; exact Hl].
    destruct r0 as [|pat [|kw [|src r]]]; try discriminate H.
    destruct (parse_loop_alias P (w_plain pat)) as [al|]; [|discriminate H].
    destruct (is_word (txt "in") (w_tok kw)); [|discriminate H].
    destruct (wparse_source_list P hf w src) as [w1 [[vals u1]|]]; [|discriminate H].
    destruct (wparse_loops P hf r w1) as [w2 [[[items' rest'] u']|]] eqn:E; [|discriminate H].
    injection H as <- <- <- <-. eapply IH; [|  |exact E]; [cbn in Hle; lia|].
    inversion Hl as [|? ? _ G1]; inversion G1 as [|? ? _ G2]; inversion G2 as [|? ? _ G3]; inversion G3; assumption.
Qed.
Definition header_plain (o : option (option (list loop_item) * option alias_spec * list wtok * bool)) :=
  option_map (fun '(loops, spec, rest, u) => (loops, spec, plain rest, u)) o.
Lemma header_same w ts :
  parse_header P hf (fst w) (map (ann P hf) ts) = header_plain (snd (wparse_header P hf w (map (wann P hf) ts))).
Proof.
  unfold parse_header, wparse_header. rewrite <- wanns_plain, loops_same.
  pose proof (loops_rest (map (wann P hf) ts) w) as Hr.
  destruct (wparse_loops P hf (map (wann P hf) ts) w) as [w1 [[[items l1] u1]|]]; cbn [fst snd loops_plain option_map]; [|reflexivity].
  specialize (Hr _ _ _ _ (wanns_same ts) eq_refl). change (map w_plain l1) with (plain l1).
  destruct (peek_ident P (plain l1)); [|reflexivity]. rewrite (spec_same _ Hr). cbn [snd].
  destruct (wparse_spec P hf l1 None None w1) as [w2 [[[[its used] l2] u2]|]]; reflexivity.
Qed.

(** ** The count *)
Definition sizes (l : list wtok) : N := tokens_of (wtoks l).
Definition inside (t : tt) : N := match t with TGroup Paren ts => tokens_of ts | _ => 0%N end.
Definition fits (t : wtok) : Prop :=
  (forall w, snd (fst (w_args t w)) <= snd w + inside (w_tok t))%N /\
  (forall w, snd (fst (w_tuple t w)) <= snd w + inside (w_tok t))%N.

Lemma sizes_cons t l : sizes (t :: l) = (tokens_in (w_tok t) + sizes l)%N.
Proof. reflexivity. Qed.
Lemma sizes_nil : sizes [] = 0%N.
Proof. reflexivity. Qed.
Lemma tokens_pos t : (1 <= tokens_in t)%N.
Proof. destruct t as [x|c j|l|[| | |] ts]; cbn [tokens_in]; lia. Qed.
Lemma inside_lt t : (inside t + 1 <= tokens_in t)%N.
Proof. destruct t as [x|c j|l|[| | |] ts]; cbn [tokens_in inside]; unfold tokens_of; lia. Qed.
Lemma sizes_skipn k l : (sizes (firstn k l) + sizes (skipn k l) = sizes l)%N.
Proof.
  revert k. induction l as [|t r IH]; intros [|k]; try reflexivity. cbn [firstn skipn]. rewrite !sizes_cons.
  specialize (IH k). lia.
Qed.

(** A call takes two tokens and makes fewer rounds than they have; a value one round. *)
Lemma expr_fits w l : Forall fits l -> forall w' e k u, wparse_expr P hf w l = (w', (e, k, u)) ->
  snd w' = N.succ (snd w) \/ (k = 2 /\ exists f g r, l = f :: g :: r /\ (snd w' + 1 <= snd w + sizes [f; g])%N).
Proof.
  intros Hl w' e k u H. unfold wparse_expr in H. destruct (wparse_call P hf w l) as [[w1 [e1 k1]]|] eqn:E.
  - right. injection H as <- <- <- <-. unfold wparse_call in E. destruct l as [|f [|g r]]; try discriminate E.
    destruct (w_tok f); try discriminate E. destruct (w_tok g) as [| | |[| | |] ts] eqn:Eg; try discriminate E.
    destruct (ident_allowed P x && hf x); [|discriminate E].
    inversion Hl as [|? ? _ Hl']; subst. inversion Hl' as [|? ? (Ha & _) _]; subst. specialize (Ha w).
    destruct (w_args g w) as [[n1 c] args]. injection E as <- <- <-. split; [reflexivity|]. exists f, g, r.
    split; [reflexivity|]. rewrite !sizes_cons, sizes_nil. pose proof (inside_lt (w_tok g)). pose proof (tokens_pos (w_tok f)).
    cbn [fst snd] in *. lia.
  - left. unfold wparse_value in H. destruct (parse_value P is_comma (fst w) (wtoks l)) as [n r]. injection H as <- _. reflexivity.
Qed.

(** What an item may cost: the tokens that it takes, and at least the first one. *)
Definition item_fits {A} (item : work -> list wtok -> work * option (A * nat)) : Prop :=
  forall w t r w' o, Forall fits (t :: r) -> item w (t :: r) = (w', o) ->
  match o with
  | Some (_, k) => snd w' <= snd w + tokens_in (w_tok t) + sizes (firstn (pred k) r)
  | None => snd w' <= snd w + sizes (t :: r)
  end%N.
Lemma terminated_fits {A} (item : work -> list wtok -> work * option (A * nat)) : item_fits item ->
  forall l, Forall fits l -> forall skip w,
  (snd (fst (wparse_terminated item l skip w)) <= snd w + match skip with Some k => sizes (skipn k l) | None => sizes l end)%N.
Proof.
  intros Hitem l Hl. induction Hl as [|t r Ht Hr IH]; intros skip w; [cbn; destruct skip as [[|k]|]; lia|].
  cbn [wparse_terminated]. destruct skip as [[|k]|].
  - cbn [skipn]. rewrite sizes_cons. destruct (is_comma (w_tok t)); [|cbn; lia]. specialize (IH None w). lia.
  - cbn [skipn]. apply IH.
  - destruct (item w (t :: r)) as [w1 o] eqn:E. pose proof (Hitem _ _ _ _ _ (Forall_cons _ Ht Hr) E) as Hi.
    destruct o as [[a k]|]; [|exact Hi]. rewrite sizes_cons. destruct k as [|k]; cbn [pred] in Hi.
    + cbn [firstn] in Hi. rewrite sizes_nil in Hi. destruct (is_comma (w_tok t)); [|cbn [fst]; lia].
      specialize (IH None w1). destruct (wparse_terminated item r None w1). cbn [fst] in *. lia.
    + specialize (IH (Some k) w1). destruct (wparse_terminated item r (Some k) w1). cbn [fst] in *.
      pose proof (sizes_skipn k r). lia.
Qed.

(** An expression as an item. *)
Lemma expr_item w t r w' e k u : Forall fits (t :: r) -> wparse_expr P hf w (t :: r) = (w', (e, k, u)) ->
  (snd w' <= snd w + tokens_in (w_tok t) + sizes (firstn (pred k) r))%N.
Proof.
  intros Hl H. destruct (expr_fits _ _ Hl _ _ _ _ H) as [->|(-> & f & g & r' & E & Hle)].
  - pose proof (tokens_pos (w_tok t)). lia.
  - injection E as <- ->. rewrite !sizes_cons, sizes_nil in Hle. cbn [pred firstn]. rewrite sizes_cons, sizes_nil. lia.
Qed.
Lemma firstn_le (k : nat) l : (sizes (firstn k l) <= sizes l)%N.
Proof. pose proof (sizes_skipn k l). lia. Qed.
Lemma until_length term l : wuntil term l = firstn (List.length (wuntil term l)) l.
Proof. induction l as [|t r IH]; [reflexivity|]. cbn. destruct (term (w_tok t)); [reflexivity|]. cbn. rewrite <- IH. reflexivity. Qed.

Lemma arg_fits : item_fits (wparse_arg P hf).
Proof.
  intros w t r w' o Hl H. unfold wparse_arg in H.
  destruct (wparse_expr P hf w (wuntil is_comma (t :: r))) as [w1 [[e k] u]] eqn:E.
  pose proof (until_Forall fits is_comma _ Hl) as Hu. pose proof (tokens_pos (w_tok t)) as Hp. cbn [wuntil] in *.
  assert (Hb : (snd w1 <= snd w + tokens_in (w_tok t) +
      sizes (firstn (pred (List.length (if is_comma (w_tok t) then [] else t :: wuntil is_comma r))) r))%N).
  { destruct (is_comma (w_tok t)).
    - destruct (expr_fits _ _ Hu _ _ _ _ E) as [->|(_ & f & g & r' & E' & _)]; [lia|discriminate E'].
    - apply (expr_item _ _ _ _ _ _ _ Hu) in E. cbn [List.length pred]. rewrite <- until_length.
      pose proof (firstn_le (pred k) (wuntil is_comma r)). lia. }
  injection H as <- <-.
  destruct (skipn k (if is_comma (w_tok t) then [] else t :: wuntil is_comma r)); [destruct u|];
    try exact Hb; rewrite sizes_cons; refine (N.le_trans _ _ _ Hb _); rewrite <- N.add_assoc; apply N.add_le_mono_l, N.add_le_mono_l, firstn_le.
Qed.
Lemma args_fit l : Forall fits l -> forall w, (snd (fst (wparse_args P hf l w)) <= snd w + sizes l)%N.
Proof.
  intros Hl w. pose proof (terminated_fits _ arg_fits l Hl None w) as H. unfold wparse_args.
  destruct (wparse_terminated (wparse_arg P hf) l None w) as [w' [as_|]]; exact H.
Qed.
Lemma tuple_value_fits : item_fits (wparse_tuple_value P hf).
Proof.
  intros w t r w' o Hl H. unfold wparse_tuple_value in H. pose proof Hl as Hl'. inversion Hl' as [|? ? (_ & Ht) _]; subst. specialize (Ht w).
  pose proof (inside_lt (w_tok t)) as Hi.
  destruct (w_tok t) as [x|c j|lt|[| | |] ts] eqn:Et;
    try (destruct (wparse_expr P hf w (t :: r)) as [w1 [[e k] u]] eqn:E; injection H as <- <-;
         rewrite <- Et; eapply expr_item; eassumption).
  destruct (w_tuple t w) as [w1 [[tu u]|]]; injection H as <- <-; cbn [fst] in Ht; rewrite ?sizes_cons, ?Et; lia.
Qed.
Lemma tuple_fit l : Forall fits l -> forall w, (snd (fst (wparse_tuple P hf l w)) <= snd w + sizes l)%N.
Proof.
  intros Hl w. pose proof (terminated_fits _ tuple_value_fits l Hl None w) as H. unfold wparse_tuple.
  destruct (wparse_terminated (wparse_tuple_value P hf) l None w) as [w' o]; exact H.
Qed.
Lemma source_value_fits : item_fits (wparse_source_value P hf).
Proof.
  intros w t r w' o Hl H. unfold wparse_source_value in H. pose proof Hl as Hl'. inversion Hl' as [|? ? (_ & Ht) _]; subst. specialize (Ht w).
  pose proof (inside_lt (w_tok t)) as Hi.
  destruct (w_tok t) as [x|c j|lt|[| | |] ts] eqn:Et;
    try (destruct (wparse_expr P hf w (t :: r)) as [w1 [[e k] u]] eqn:E; injection H as <- <-;
         rewrite <- Et; eapply expr_item; eassumption).
  destruct (w_tuple t w) as [w1 [[tu u]|]]; cbn [fst] in Ht.
  - injection H as <- <-. lia.
  - unfold wparse_expr, wparse_call in H.
    assert (E : match r with
        | [] => None
        | g :: _ => match w_tok t, w_tok g with
                    | TIdent x, TGroup Paren inner =>
                        if ident_allowed P x && hf x then
                          let '(n1, c, args) := w_args g w1 in
                          Some (N.succ (N.succ n1), c, (ECall (N.succ n1) x args (Some (n1, inner)), 2))
                        else None
                    | _, _ => None
                    end
        end = None :> option (work * (expr * nat))) by (destruct r; [reflexivity|]; rewrite Et; reflexivity).
    rewrite E in H. unfold wparse_value in H.
    destruct (parse_value P is_comma (fst w1) (wtoks (t :: r))) as [n [[e k] u]]. injection H as <- <-. cbn [snd]. lia.
Qed.
Lemma sizes_wann ts : sizes (map (wann P hf) ts) = tokens_of ts.
Proof.
  unfold sizes, wtoks. rewrite map_map. f_equal. rewrite <- (map_id ts) at 2. apply map_ext. intros t.
  destruct t as [x|c j|l|[| | |] ts']; reflexivity.
Qed.
Lemma wann_fits t : fits (wann P hf t).
Proof.
  induction t as [x|c j|l|d ts IH] using tt_ind'; try (split; cbn; lia).
  destruct d; try (split; cbn; lia).
  assert (Hs : Forall fits (map (wann P hf) ts)) by (clear - IH; induction IH; constructor; auto).
  split; intros w; change (w_tok (wann P hf (TGroup Paren ts))) with (TGroup Paren ts); cbn [inside]; rewrite <- (sizes_wann ts);
    [apply args_fit|apply tuple_fit]; exact Hs.
Qed.
Lemma wanns_fit ts : Forall fits (map (wann P hf) ts).
Proof. induction ts; constructor; auto. apply wann_fits. Qed.

Lemma spec_item_fits w t r w' o : Forall fits (t :: r) -> wparse_spec_item P hf w (t :: r) = (w', o) ->
  match o with
  | Some (_, k, _) => snd w' <= snd w + tokens_in (w_tok t) + sizes (firstn (pred k) r)
  | None => snd w' <= snd w + sizes (t :: r)
  end%N.
Proof.
  intros Hl H. unfold wparse_spec_item in H. destruct r as [|eq r]; [injection H as <- <-; lia|].
  destruct (w_tok t) as [x|c j|lt|d ts] eqn:Et; try (injection H as <- <-; lia).
  destruct (ident_allowed P x && is_equals (w_tok eq)); [|injection H as <- <-; lia].
  destruct (wparse_expr P hf w r) as [w1 [[e k] u]] eqn:E.
  assert (Hb : (snd w1 <= snd w + tokens_in (w_tok t) + sizes (firstn (S k) (eq :: r)))%N).
  { cbn [firstn]. rewrite sizes_cons. pose proof (tokens_pos (w_tok eq)).
    assert (Hr : Forall fits r) by (inversion Hl as [|? ? _ H1]; inversion H1; assumption).
    destruct (expr_fits _ _ Hr _ _ _ _ E) as [->|(-> & f & g & r' & -> & Hle)]; [lia|]. cbn [firstn]. lia. }
  rewrite <- Et. destruct (ends is_separator (wtoks (skipn k r))); injection H as <- <-; [exact Hb|].
  rewrite sizes_cons. pose proof (firstn_le (S k) (eq :: r)). lia.
Qed.
Lemma spec_fits l : Forall fits l -> forall skip used w,
  (snd (fst (wparse_spec P hf l skip used w)) <= snd w + match skip with Some k => sizes (skipn k l) | None => sizes l end)%N.
Proof.
  induction 1 as [|t r Ht Hr IH]; intros skip used w; [destruct skip as [[|k]|]; cbn; lia|].
  cbn [wparse_spec]. destruct skip as [[|k]|].
  - cbn [skipn]. rewrite sizes_cons. destruct (is_separator (w_tok t)); [|cbn; lia].
    destruct (match used with Some u => _ | None => _ end); [cbn; lia|].
    destruct (peek_ident P (map w_plain r)); [|cbn; lia]. specialize (IH None (Some (is_comma (w_tok t))) w). cbn in IH. lia.
  - cbn [skipn]. apply (IH (Some k)).
  - destruct (wparse_spec_item P hf w (t :: r)) as [w1 o] eqn:E. pose proof (spec_item_fits _ _ _ _ _ (Forall_cons _ Ht Hr) E) as Hi.
    rewrite sizes_cons in *. destruct o as [[[item [|k]] u]|]; cbn [pred] in Hi.
    + cbn [fst firstn] in *. rewrite sizes_nil in Hi. lia.
    + specialize (IH (Some k) used w1). destruct (wparse_spec P hf r (Some k) used w1) as [w2 rest]. cbn [fst] in *.
      pose proof (sizes_skipn k r). lia.
    + exact Hi.
Qed.
Lemma source_list_fits w t : (snd (fst (wparse_source_list P hf w t)) <= snd w + tokens_in (w_tok t))%N.
Proof.
  unfold wparse_source_list. destruct (w_tok t) as [x|c j|lt|[| | |] ts]; try (cbn [fst snd]; lia).
  pose proof (terminated_fits _ source_value_fits _ (wanns_fit ts) None w) as H. rewrite sizes_wann in H.
  destruct (wparse_terminated (wparse_source_value P hf) (map (wann P hf) ts) None w) as [w' o]. cbn [fst tokens_in] in *. unfold tokens_of in H. lia.
Qed.
Lemma loops_fits l : forall w w' o, wparse_loops P hf l w = (w', o) ->
  (snd w' + match o with Some (_, rest, _) => sizes rest | None => 0 end <= snd w + sizes l)%N /\
  (Forall fits l -> forall items rest u, o = Some (items, rest, u) -> Forall fits rest).
Proof.
  remember (List.length l) as len eqn:Hlen. assert (Hle : List.length l <= len) by lia. clear Hlen. revert l Hle.
  induction len as [|len IH]; intros l Hle w w' o H.
  - destruct l; [|cbn in Hle; lia]. injection H as <- <-. split; [lia|]. intros _ ? ? ? E. injection E as _ <- _. constructor.
  - destruct l as [|f r0]; [injection H as <- <-; split; [lia|]; intros _ ? ? ? E; injection E as _ <- _; constructor|]. cbn [wparse_loops] in H.
    destruct (is_word (txt "for") (w_tok f)).
    2:{ injection H as <- <-. split; [lia|]. intros Hl ? ? ? E. injection E as _ <- _. exact Hl. }
    assert (Fail : (w, None) = (w', o) ->
      (snd w' + match o with Some (_, rest, _) => sizes rest | None => 0 end <= snd w + sizes (f :: r0))%N /\
      (Forall fits (f :: r0) -> forall items rest u, o = Some (items, rest, u) -> Forall fits rest)).
    { intros E. injection E as <- <-. split; [lia|discriminate]. }
    destruct r0 as [|pat [|kw [|src r]]]; try exact (Fail H).
    destruct (parse_loop_alias P (w_plain pat)) as [al|]; [|exact (Fail H)].
    destruct (is_word (txt "in") (w_tok kw)); [|exact (Fail H)].
    pose proof (source_list_fits w src) as Hs. rewrite !sizes_cons.
    destruct (wparse_source_list P hf w src) as [w1 [[vals u]|]]; cbn [fst] in Hs.
    2:{ injection H as <- <-. split; [lia|discriminate]. }
    destruct (wparse_loops P hf r w1) as [w2 rest] eqn:Er. destruct (IH r ltac:(cbn in Hle; lia) _ _ _ Er) as (Hr & Hf).
    injection H as <- <-. destruct rest as [[[items rest'] u']|]; cbn [option_map].
    + split; [lia|]. intros Hl ? ? ? E. injection E as _ <- _. eapply Hf; [|reflexivity].
      inversion Hl as [|? ? _ G1]; inversion G1 as [|? ? _ G2]; inversion G2 as [|? ? _ G3]; inversion G3; assumption.
    + split; [lia|discriminate].
Qed.
Theorem rounds_fit ts : (parse_rounds P hf ts <= tokens_of ts)%N.
Proof.
  unfold parse_rounds, wparse_header. rewrite <- (sizes_wann ts).
  destruct (wparse_loops P hf (map (wann P hf) ts) (0%N, 0%N)) as [w1 o] eqn:E.
  destruct (loops_fits _ _ _ _ E) as (H & Hf). cbn [snd] in H.
  destruct o as [[[items l1] u1]|]; [|cbn [fst]; lia].
  specialize (Hf (wanns_fit ts) _ _ _ eq_refl).
  destruct (peek_ident P (map w_plain l1)); [|cbn [fst]; lia].
  pose proof (spec_fits _ Hf None None w1) as Hs.
  destruct (wparse_spec P hf l1 None None w1) as [w2 [[[[its used] l2] u2]|]]; cbn [fst] in *; lia.
Qed.
End Work.

Lemma header_counts P hf n c ts :
  match snd (wparse_header P hf (n, c) (map (wann P hf) ts)) with
  | Some (loops, spec, rest, u) => parse_header P hf n (map (ann P hf) ts) = Some (loops, spec, map w_plain rest, u)
  | None => parse_header P hf n (map (ann P hf) ts) = None
  end.
Proof.
  pose proof (header_same P hf (n, c) ts) as H. cbn [fst] in H.
  destruct (snd (wparse_header P hf (n, c) (map (wann P hf) ts))) as [[[[loops spec] rest] u]|]; exact H.
Qed.

Lemma attempts_draw term ts l : forall n best n' best', fold_left (attempt term ts) l (n, best) = (n', best') ->
  (n <= n' <= n + N.of_nat (List.length l))%N /\ (best = None -> best' <> None -> n + 1 <= n')%N.
Proof.
  induction l as [|o l IH]; intros n best n' best' H; cbn [fold_left] in H.
  - injection H as <- <-. cbn. split; [lia|]. intros H1 H2. contradiction.
  - destruct (attempt term ts (n, best) o) as [n1 b1] eqn:E. apply IH in H as (H & Hb). cbn [List.length].
    assert (Hs : (n1 = n /\ b1 = best) \/ n1 = N.succ n).
    { unfold attempt in E. destruct (try_parse term ts o) as [[[v k] u]|]; [|left; injection E as <- <-; auto].
      destruct best as [[m b]|]; [destruct (Nat.ltb m (distance_to k ts))|]; injection E as <- <-; auto. }
    destruct Hs as [(-> & ->)| ->]; split; try lia. exact Hb.
Qed.
Lemma round_draws P term n ts n' r : parse_value P term n ts = (n', r) -> (n + 1 <= n' <= n + 7)%N.
Proof.
  unfold parse_value. destruct (fold_left (attempt term ts) (attempts P ts) (n, None)) as [n1 b] eqn:E.
  assert (Hn : b = None -> n1 = n).
  { clear - E. revert n n1 b E. generalize (attempts P ts). intros l n.
    assert (G : forall l n n1 b best, best <> None -> fold_left (attempt term ts) l (n, best) = (n1, b) -> b <> None).
    { clear. induction l as [|o l IH]; intros n n1 b best Hb H; cbn [fold_left] in H; [injection H as <- <-; exact Hb|].
      destruct (attempt term ts (n, best) o) as [n2 b2] eqn:E. eapply IH; [|exact H].
      unfold attempt in E. destruct (try_parse term ts o) as [[[v k] u]|]; [|injection E as <- <-; exact Hb].
      destruct best as [[m bb]|]; [|contradiction]. destruct (Nat.ltb m (distance_to k ts)); injection E as <- <-; discriminate. }
    induction l as [|o l IH]; intros n1 b H Hb; cbn [fold_left] in H; [injection H as <- <-; reflexivity|].
    destruct (attempt term ts (n, None) o) as [n2 b2] eqn:E.
    unfold attempt in E. destruct (try_parse term ts o) as [[[v k] u]|].
    - injection E as <- <-. exfalso. refine (G _ _ _ _ _ _ H Hb). discriminate.
    - injection E as <- <-. exact (IH _ _ H Hb). }
  apply attempts_draw in E as (H & Hb). cbn in H. destruct b as [[m r']|]; intros E; injection E as <- <-.
  - specialize (Hb eq_refl ltac:(discriminate)). lia.
  - rewrite (Hn eq_refl). lia.
Qed.
