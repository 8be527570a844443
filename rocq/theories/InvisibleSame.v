(** Parsing input with invisible groups is parsing it without them. *)
From Coq Require Import String Lia.
From Verif Require Import Base Token Types Values Ast Item Interpreter Parse InvisibleParse SpecRepro SpecInvisible InvisibleProofs.
Open Scope list_scope.

(** ** Sizes *)
Fixpoint tsize (t : tt) : nat :=
  match t with
  | TGroup _ ts => S (fold_right (fun t n => tsize t + n) 0 ts)
  | _ => 1
  end.
Definition sizes (ts : list tt) : nat := fold_right (fun t n => tsize t + n) 0 ts.
Lemma sizes_app a b : sizes (a ++ b) = sizes a + sizes b.
Proof. unfold sizes. induction a as [|x a IH]; [reflexivity|]. cbn [app fold_right]. rewrite IH. lia. Qed.
Lemma sizes_cons t r : sizes (t :: r) = tsize t + sizes r.
Proof. reflexivity. Qed.
Lemma tsize_group d xs : tsize (TGroup d xs) = S (sizes xs).
Proof. reflexivity. Qed.
Lemma sizes_advance k ts : sizes (advance k ts) <= sizes ts.
Proof.
  revert ts. induction k as [|k IH]; intros ts; [rewrite advance_0; lia|]. destruct ts as [|t r]; [cbn; lia|].
  destruct (invisible t) eqn:E.
  - destruct t as [| | |[] xs]; try discriminate. cbn [advance]. specialize (IH (xs ++ r)). rewrite sizes_app in IH. rewrite sizes_cons, tsize_group. lia.
  - rewrite (advance_visible _ _ _ E), sizes_cons. specialize (IH r). lia.
Qed.
Lemma sizes_next ts i t : next ts = (i, Some t) -> tsize t <= sizes ts.
Proof.
  revert i. induction ts as [|xs r IH|x r E IH] using entries_ind; intros i H; [discriminate| |].
  - rewrite next_invisible in H. destruct (next (xs ++ r)) as [j o] eqn:N. injection H as <- ->.
    specialize (IH j eq_refl). rewrite sizes_app in IH. rewrite sizes_cons, tsize_group. lia.
  - rewrite (next_visible _ _ E) in H. injection H as <- ->. rewrite sizes_cons. lia.
Qed.

Definition agree {A B} (f : list tt -> option (A * nat * bool)) (what : A -> B) (ts : list tt) : Prop :=
  match f ts, f (flats ts) with
  | Some (a, k, u), Some (a', k', u') => what a = what a' /\ u = u' /\ matches ts k k'
  | None, None => True
  | _, _ => False
  end.

Section Same.
Context (P : parsers) (has_func : str -> bool) (D : list tt -> Prop) (F : list tt -> list tt) {C : Type} (G : list stmt -> C).
Hypothesis D_fine : forall ts, D ts -> all_fine ts = true.
Hypothesis D_next : forall t r, D (t :: r) -> D r.
Hypothesis D_enter : forall xs r, D (TGroup NoDelim xs :: r) -> D (xs ++ r).
Hypothesis D_group : forall d xs r, D (TGroup d xs :: r) -> D xs.
Hypothesis D_front : forall a b, D (a ++ b) -> D a.
Hypothesis F_flat : forall ts, D ts -> F ts = F (flats ts).
Hypothesis P_int : forall ts, D ts -> agree (with_nothing_unread (pre_lit_int P)) (fun x => x) ts.
Hypothesis P_str : forall ts, D ts -> agree (with_nothing_unread (pre_lit_str P)) (fun x => x) ts.
Hypothesis P_path : forall ts, D ts -> agree (pre_path P) F ts.
Hypothesis P_type : forall ts, D ts -> agree (pre_type P) F ts.
Hypothesis P_expr : forall ts, D ts -> agree (pre_expr P) F ts.
Hypothesis P_block : forall ts, D ts -> agree (pre_block P) G ts.

Local Notation fx := (over_expr F).
Local Notation E ts := (flat_map (ann P has_func) ts).
Local Notation E' ts := (map (Parse.ann P has_func) (flats ts)).

Lemma D_advance k ts : D ts -> D (advance k ts).
Proof.
  revert ts. induction k as [|k IH]; intros ts H; [rewrite advance_0; exact H|]. destruct ts as [|t r]; [exact H|].
  destruct (invisible t) eqn:I.
  - destruct t as [| | |[] xs]; try discriminate. cbn [advance]. apply IH, D_enter, H.
  - rewrite (advance_visible _ _ _ I). apply IH, (D_next t), H.
Qed.
Lemma D_in_next ts i t d xs : D ts -> next ts = (i, Some t) -> t = TGroup d xs -> D xs.
Proof.
  revert i. induction ts as [|ys r IH|x r I IH] using entries_ind; intros i H N Et; [discriminate| |].
  - rewrite next_invisible in N. destruct (next (ys ++ r)) as [j o] eqn:N'. injection N as <- ->.
    apply (IH j); [apply D_enter, H|reflexivity|exact Et].
  - rewrite (next_visible _ _ I) in N. injection N as <- ->. subst t. apply (D_group d xs r H).
Qed.
Lemma D_until term ts : D ts -> D (until term ts).
Proof. intros H. destruct (until_prefix term ts) as [rest Er]. rewrite Er in H. exact (D_front _ _ H). Qed.

(** ** Entries *)
Definition tok1 (t : tt) : atok :=
  match t with
  | TGroup Paren ts =>
      {| a_tok := t; a_args := parse_args P has_func (E ts) ts; a_tuple := parse_tuple P has_func (E ts) ts;
         a_pattern := parse_pattern P (E ts) ts |}
  | _ => {| a_tok := t; a_args := fun n => (n, []); a_tuple := fun n => (n, None); a_pattern := None |}
  end.
Lemma ann_visible t : invisible t = false -> ann P has_func t = [Tok (tok1 t)].
Proof. destruct t as [| | |[] ?]; try reflexivity. discriminate. Qed.
Lemma tok1_tok t : a_tok (tok1 t) = t.
Proof. destruct t as [| | |[] ?]; reflexivity. Qed.
Lemma E_app a b : E (a ++ b) = E a ++ E b.
Proof. apply flat_map_app. Qed.
Lemma E_invisible xs r : E (TGroup NoDelim xs :: r) = Open :: E (xs ++ r).
Proof. rewrite E_app. reflexivity. Qed.
Lemma E_visible t r : invisible t = false -> E (t :: r) = Tok (tok1 t) :: E r.
Proof. intros I. cbn [flat_map]. rewrite (ann_visible _ I). reflexivity. Qed.
Lemma E_length ts : List.length (E ts) = all_entries ts.
Proof.
  induction ts as [|xs r IH|x r I IH] using entries_ind; [reflexivity| |].
  - rewrite E_invisible, all_entries_invisible. cbn [List.length]. rewrite IH. reflexivity.
  - rewrite (E_visible _ _ I), (all_entries_visible _ _ I). cbn [List.length]. rewrite IH. reflexivity.
Qed.
Lemma E_nil ts : E ts = [] -> ts = [].
Proof. intros H. apply entries_nil. rewrite <- E_length, H. reflexivity. Qed.
Lemma E_advance1 ts e r : E ts = e :: r -> r = E (advance 1 ts).
Proof.
  destruct ts as [|t ts]; [discriminate|]. destruct (invisible t) eqn:I.
  - destruct t as [| | |[] xs]; try discriminate. rewrite E_invisible. intros H. injection H as <- <-. cbn [advance]. rewrite ?advance_0. reflexivity.
  - rewrite (E_visible _ _ I), (advance_visible _ _ _ I), advance_0. intros H. injection H as <- <-. reflexivity.
Qed.
Lemma E_firstn a b : firstn (all_entries a) (E (a ++ b)) = E a.
Proof. rewrite E_app, <- E_length, firstn_app, firstn_all, Nat.sub_diag. cbn. apply app_nil_r. Qed.
Lemma seen_some ts i t : next ts = (i, Some t) -> seen (E ts) = Tok (tok1 t) :: E (advance (S i) ts).
Proof.
  revert i. induction ts as [|xs r IH|x r I IH] using entries_ind; intros i H; [discriminate| |].
  - rewrite next_invisible in H. destruct (next (xs ++ r)) as [j o] eqn:N. injection H as <- ->.
    rewrite E_invisible. cbn [seen]. rewrite (IH j eq_refl). reflexivity.
  - rewrite (next_visible _ _ I) in H. injection H as <- ->. rewrite (E_visible _ _ I), (advance_visible _ _ _ I), advance_0. reflexivity.
Qed.
Lemma seen_none ts i : next ts = (i, None) -> seen (E ts) = [].
Proof.
  revert i. induction ts as [|xs r IH|x r I IH] using entries_ind; intros i H; [reflexivity| |].
  - rewrite next_invisible in H. destruct (next (xs ++ r)) as [j o] eqn:N. injection H as <- ->.
    rewrite E_invisible. cbn [seen]. apply (IH j eq_refl).
  - rewrite (next_visible _ _ I) in H. discriminate.
Qed.
Lemma E_minus ts i t : next ts = (i, Some t) -> List.length (E ts) - List.length (E (advance (S i) ts)) = S i.
Proof. intros N. destruct (next_some _ _ _ N) as (_ & _ & L & _). rewrite !E_length, advance_entries. lia. Qed.
Lemma E_minus2 ts i t j t' : next ts = (i, Some t) -> next (advance (S i) ts) = (j, Some t') ->
  List.length (E ts) - List.length (E (advance (S j) (advance (S i) ts))) = S i + S j.
Proof.
  intros N N'. destruct (next_some _ _ _ N) as (_ & _ & L & _). destruct (next_some _ _ _ N') as (_ & _ & L' & _).
  rewrite !E_length, !advance_entries in *. lia.
Qed.
Lemma E'_some ts i t : next ts = (i, Some t) -> E' ts = Parse.ann P has_func (flat1 t) :: E' (advance (S i) ts).
Proof. intros N. destruct (next_some _ _ _ N) as (_ & -> & _). reflexivity. Qed.
Lemma E'_none ts i : next ts = (i, None) -> E' ts = [].
Proof. intros N. destruct (next_none _ _ N) as (-> & _). reflexivity. Qed.
Lemma toks_ann l : toks (map (Parse.ann P has_func) l) = l.
Proof. unfold toks. rewrite map_map. rewrite <- (map_id l) at 2. apply map_ext. intros [| | |[] ?]; reflexivity. Qed.
Lemma tok_ann t : a_tok (Parse.ann P has_func t) = t.
Proof. destruct t as [| | |[] ?]; reflexivity. Qed.

(** ** Values *)
Definition cand (ts : list tt) (o o' : option candidate) : Prop :=
  match o, o' with
  | Some (v, k, u), Some (v', k', u') => over_value F v = over_value F v' /\ u = u' /\ matches ts k k'
  | None, None => True
  | _, _ => False
  end.
Lemma cand_node f (Hf : forall x y, F x = F y -> over_value F (f x) = over_value F (f y)) g ts : agree g F ts ->
  cand ts (node_candidate f (g ts)) (node_candidate f (g (flats ts))).
Proof.
  unfold agree, cand, node_candidate. destruct (g ts) as [[[a k] u]|], (g (flats ts)) as [[[a' k'] u']|]; cbn; try tauto.
  intros (A & B & M). repeat split; auto; apply M.
Qed.
Lemma cands ts : D ts -> Forall2 (cand ts) (attempts P ts) (Parse.attempts P (flats ts)).
Proof.
  intros H. unfold attempts, Parse.attempts. repeat apply Forall2_cons; [| | | | | | |apply Forall2_nil].
  - generalize (P_int _ H). unfold agree, cand, with_nothing_unread, lit_int_candidate.
    destruct (pre_lit_int P ts) as [[[a b] k]|], (pre_lit_int P (flats ts)) as [[[a' b'] k']|]; cbn; try tauto.
    intros (A & B & M). injection A as -> ->. repeat split; apply M.
  - generalize (P_str _ H). unfold agree, cand, with_nothing_unread, lit_str_candidate.
    destruct (pre_lit_str P ts) as [[[a b] k]|], (pre_lit_str P (flats ts)) as [[[a' b'] k']|]; cbn; try tauto.
    intros (A & B & M). injection A as -> ->. repeat split; apply M.
  - unfold underscore_candidate, Parse.underscore_candidate. destruct (next ts) as [i [t|]] eqn:N.
    + pose proof (next_matches _ _ _ N) as M. destruct (next_some _ _ _ N) as (_ & -> & _). rewrite blind_word, blind_punct.
      destruct (is_word [95%N] t || is_punct 95%N t); [|exact I]. cbn. repeat split; apply M.
    + destruct (next_none _ _ N) as (-> & _). exact I.
  - unfold ident_candidate, Parse.ident_candidate. destruct (next ts) as [i [t|]] eqn:N.
    + pose proof (next_matches _ _ _ N) as M. destruct (next_some _ _ _ N) as (_ & -> & _).
      destruct t as [x|c j|l|d xs]; cbn [flat1]; try exact I. destruct (ident_allowed P x); [|exact I]. cbn. repeat split; apply M.
    + destruct (next_none _ _ N) as (-> & _). exact I.
  - apply cand_node; [intros x y e; cbn; rewrite e; reflexivity|apply P_path, H].
  - apply cand_node; [intros x y e; cbn; rewrite e; reflexivity|apply P_type, H].
  - apply cand_node; [intros x y e; cbn; rewrite e; reflexivity|apply P_expr, H].
Qed.
Lemma cand_try ts o o' : D ts -> cand ts o o' -> cand ts (try_parse is_comma ts o) (Parse.try_parse is_comma (flats ts) o').
Proof.
  intros H. unfold cand, try_parse, Parse.try_parse. destruct o as [[[v k] u]|], o' as [[[v' k'] u']|]; try tauto.
  intros (A & B & M). rewrite (ends_flat _ _ blind_comma (D_fine _ (D_advance k _ H))), (proj1 M).
  destruct (ends is_comma (skipn k' (flats ts))); [|exact I]. auto.
Qed.
Definition best (ts : list tt) (x y : N * option (nat * (expr * nat * bool))) : Prop :=
  fst x = fst y /\
  match snd x, snd y with
  | Some (m, (e, k, u)), Some (m', (e', k', u')) => m = m' /\ fx e = fx e' /\ u = u' /\ matches ts k k'
  | None, None => True
  | _, _ => False
  end.
Lemma best_attempt ts x y o o' : D ts -> best ts x y -> cand ts o o' ->
  best ts (attempt is_comma ts x o) (Parse.attempt is_comma (flats ts) y o').
Proof.
  intros H Hb Hc. apply (cand_try _ _ _ H) in Hc. unfold attempt, Parse.attempt. destruct x as [n b], y as [n' b'].
  destruct Hb as [Hn Hb]. cbn [fst snd] in *. subst n'.
  destruct (try_parse is_comma ts o) as [[[v k] u]|], (Parse.try_parse is_comma (flats ts) o') as [[[v' k'] u']|]; cbn [cand] in Hc; try contradiction.
  - destruct Hc as (A & B & M). rewrite (distance_flat _ _ _ M).
    destruct b as [[m [[e j] w]]|], b' as [[m' [[e' j'] w']]|]; try contradiction.
    + destruct Hb as (-> & Hb). destruct (Nat.ltb m' (distance_to k' (flats ts))); split; try reflexivity; cbn; [rewrite A; auto|auto].
    + split; [reflexivity|]. cbn. rewrite A. auto.
  - split; [reflexivity|exact Hb].
Qed.
Lemma best_fold ts l l' : D ts -> Forall2 (cand ts) l l' -> forall x y, best ts x y ->
  best ts (fold_left (attempt is_comma ts) l x) (fold_left (Parse.attempt is_comma (flats ts)) l' y).
Proof.
  intros H HF. induction HF as [|o o' l l' Ho HF IH]; intros x y Hb; [exact Hb|]. cbn [fold_left]. apply IH, best_attempt; assumption.
Qed.

Definition same_expr (ts : list tt) (x y : N * (expr * nat * bool)) : Prop :=
  fst x = fst y /\ match snd x, snd y with (e, k, u), (e', k', u') => fx e = fx e' /\ u = u' /\ matches ts k k' end.
Lemma same_value n ts : D ts -> same_expr ts (parse_value P is_comma n ts) (Parse.parse_value P is_comma n (flats ts)).
Proof.
  intros H. unfold parse_value, Parse.parse_value.
  pose proof (best_fold ts _ _ H (cands ts H) (n, None) (n, None) (conj eq_refl I)) as B.
  destruct (fold_left _ (attempts P ts) _) as [n1 [[m [[e k] u]]|]], (fold_left _ (Parse.attempts P (flats ts)) _) as [n1' [[m' [[e' k'] u']]|]];
    destruct B as [Bn Bb]; cbn [fst snd] in *; try contradiction; subst n1'.
  - destruct Bb as (_ & Bb). split; [reflexivity|exact Bb].
  - split; [reflexivity|]. cbn [snd]. destruct (until_prefix is_comma ts) as [rest Er].
    rewrite <- (until_flat ts (D_fine _ H)). split; [|split; [reflexivity|]].
    + cbn [over_expr over_value]. rewrite (F_flat _ (D_until _ _ H)). reflexivity.
    + rewrite Er at 1. apply matches_prefix.
Qed.

(** ** Expressions, arguments, tuples *)
Definition same (xs : list tt) : Prop :=
  (forall n, fst (parse_args P has_func (E xs) xs n) = fst (Parse.parse_args P has_func (E' xs) n) /\
             map fx (snd (parse_args P has_func (E xs) xs n)) = map fx (snd (Parse.parse_args P has_func (E' xs) n))) /\
  (forall n, fst (parse_tuple P has_func (E xs) xs n) = fst (Parse.parse_tuple P has_func (E' xs) n) /\
             option_map (fun p => (map_tuple fx (fst p), snd p)) (snd (parse_tuple P has_func (E xs) xs n)) =
             option_map (fun p => (map_tuple fx (fst p), snd p)) (snd (Parse.parse_tuple P has_func (E' xs) n))) /\
  parse_pattern P (E xs) xs = Parse.parse_pattern P (E' xs).

Section Level.
Context (m : nat).
Hypothesis IH : forall xs, sizes xs < m -> D xs -> same xs.
Definition ok (ts : list tt) : Prop := D ts /\ sizes ts <= m.
Lemma ok_advance k ts : ok ts -> ok (advance k ts).
Proof. intros [H1 H2]. split; [apply D_advance, H1|]. pose proof (sizes_advance k ts). lia. Qed.
Lemma ok_until term ts : ok ts -> ok (until term ts).
Proof.
  intros [H1 H2]. split; [apply D_until, H1|]. destruct (until_prefix term ts) as [rest Er]. rewrite Er, sizes_app in H2. lia.
Qed.
Lemma ok_inside ts i d xs : ok ts -> next ts = (i, Some (TGroup d xs)) -> same xs.
Proof.
  intros [H1 H2] N. apply IH; [|exact (D_in_next _ _ _ _ _ H1 N eq_refl)].
  pose proof (sizes_next _ _ _ N). rewrite tsize_group in *. lia.
Qed.

Definition same_call (ts : list tt) (x y : option (N * (expr * nat))) : Prop :=
  match x, y with
  | Some (n, (e, k)), Some (n', (e', k')) => n = n' /\ fx e = fx e' /\ matches ts k k'
  | None, None => True
  | _, _ => False
  end.
Lemma call_same n ts : ok ts -> same_call ts (parse_call P has_func n (E ts)) (Parse.parse_call P has_func n (E' ts)).
Proof.
  intros H. unfold parse_call. destruct (next ts) as [i [t|]] eqn:N.
  2: { rewrite (seen_none _ _ N), (E'_none _ _ N). exact I. }
  rewrite (seen_some _ _ _ N), (E'_some _ _ _ N). destruct t as [x|c j|l|d xs]; cbn [flat1 tok1 Parse.ann]; [|exact I|exact I|destruct d; exact I].
  pose proof (ok_advance (S i) _ H) as H1. pose proof (next_matches _ _ _ N) as M.
  destruct (next (advance (S i) ts)) as [j [t|]] eqn:N1.
  2: { rewrite (seen_none _ _ N1), (E'_none _ _ N1). exact I. }
  rewrite (seen_some _ _ _ N1), (E'_some _ _ _ N1), (E_minus2 _ _ _ _ _ N N1). unfold Parse.parse_call.
  destruct t as [y|c z|l|d xs]; cbn [flat1 tok1 Parse.ann]; [exact I|exact I|exact I|]. destruct d; try exact I.
  destruct (ident_allowed P x && has_func x); [|exact I]. cbn [a_args].
  destruct (ok_inside _ _ _ _ H1 N1) as (HA & _). specialize (HA n).
  destruct (parse_args P has_func (E xs) xs n) as [n1 args], (Parse.parse_args P has_func (E' xs) n) as [n1' args'].
  cbn [fst snd] in HA. destruct HA as [<- HA]. split; [reflexivity|]. split.
  - cbn [over_expr option_map fst snd]. rewrite HA. rewrite (F_flat xs); [reflexivity|].
    exact (D_in_next _ _ _ _ _ (proj1 H1) N1 eq_refl).
  - change 2 with (1 + 1). apply matches_plus; [exact M|]. exact (next_matches _ _ _ N1).
Qed.
Lemma expr_same n ts : ok ts -> same_expr ts (parse_expr P has_func n (E ts) ts) (Parse.parse_expr P has_func n (E' ts)).
Proof.
  intros H. unfold parse_expr, Parse.parse_expr. pose proof (call_same n ts H) as Hc.
  destruct (parse_call P has_func n (E ts)) as [[n1 [e k]]|], (Parse.parse_call P has_func n (E' ts)) as [[n1' [e' k']]|]; try contradiction.
  - destruct Hc as (-> & A & M). repeat split; [exact A|apply M|apply M].
  - rewrite toks_ann. apply same_value, H.
Qed.

(** Lists of items. *)
Definition corr {A B} (f : A -> B) (ts : list tt) (x y : N * option (A * nat)) : Prop :=
  fst x = fst y /\
  match snd x, snd y with
  | Some (a, k), Some (a', k') => f a = f a' /\ matches ts k k'
  | None, None => True
  | _, _ => False
  end.
Section Items.
Context {A B : Type} (f : A -> B) (item : N -> list entry -> list tt -> N * option (A * nat)) (item' : N -> list atok -> N * option (A * nat)).
Hypothesis Hitem : forall n ts, ok ts -> ts <> [] -> corr f ts (item n (E ts) ts) (item' n (E' ts)).
Definition same_list (x y : N * option (list A)) : Prop :=
  fst x = fst y /\ option_map (map f) (snd x) = option_map (map f) (snd y).

Lemma terminated_item ts n : ts <> [] ->
  parse_terminated item (E ts) ts Item n =
  match item n (E ts) ts with
  | (n1, None) => (n1, None)
  | (n1, Some (a, k)) =>
      let (n2, rest) := parse_terminated item (E ts) ts (Skip k) n1 in (n2, option_map (cons a) rest)
  end.
Proof.
  intros NE. destruct (E ts) as [|e r] eqn:Ee; [destruct (NE (E_nil _ Ee))|]. cbn [parse_terminated].
  destruct (item n (e :: r) ts) as [n1 [[a [|k]]|]]; reflexivity.
Qed.
Lemma terminated_item' l n : l <> [] ->
  Parse.parse_terminated item' l None n =
  match item' n l with
  | (n1, None) => (n1, None)
  | (n1, Some (a, k)) =>
      let (n2, rest) := Parse.parse_terminated item' l (Some k) n1 in (n2, option_map (cons a) rest)
  end.
Proof.
  intros NE. destruct l as [|e r]; [destruct (NE eq_refl)|]. cbn [Parse.parse_terminated].
  destruct (item' n (e :: r)) as [n1 [[a [|k]]|]]; reflexivity.
Qed.
Lemma terminated_skip k : forall ts n, parse_terminated item (E ts) ts (Skip k) n = parse_terminated item (E (advance k ts)) (advance k ts) (Skip 0) n.
Proof.
  induction k as [|k IHk]; intros ts n; [rewrite advance_0; reflexivity|].
  destruct (E ts) as [|e r] eqn:Ee; [rewrite (E_nil _ Ee); reflexivity|]. cbn [parse_terminated].
  rewrite (E_advance1 _ _ _ Ee), IHk. rewrite <- advance_plus. reflexivity.
Qed.
Lemma terminated_skip' k : forall l n, Parse.parse_terminated item' l (Some k) n = Parse.parse_terminated item' (skipn k l) (Some 0) n.
Proof. induction k as [|k IHk]; intros l n; [reflexivity|]. destruct l as [|e r]; [reflexivity|]. cbn [Parse.parse_terminated skipn]. apply IHk. Qed.
Lemma terminated_sep ts i t n p : p = Skip 0 \/ p = Sep -> next ts = (i, Some t) ->
  parse_terminated item (E ts) ts p n =
  if is_comma t then parse_terminated item (E (advance (S i) ts)) (advance (S i) ts) Item n else (n, None).
Proof.
  revert i p. induction ts as [|xs r IHt|x r I IHt] using entries_ind; intros i p Hp N; [discriminate| |].
  - rewrite next_invisible in N. destruct (next (xs ++ r)) as [j o] eqn:N'. injection N as <- ->.
    rewrite E_invisible. specialize (IHt j Sep (or_intror eq_refl) eq_refl).
    destruct Hp as [-> | ->]; cbn [parse_terminated advance]; rewrite ?advance_0; exact IHt.
  - rewrite (next_visible _ _ I) in N. injection N as <- ->. rewrite (E_visible _ _ I), (advance_visible 0 _ _ I), advance_0.
    destruct Hp as [-> | ->]; cbn [parse_terminated]; rewrite (advance_visible 0 _ _ I), advance_0, tok1_tok; reflexivity.
Qed.
Lemma terminated_same ts n : ok ts ->
  same_list (parse_terminated item (E ts) ts Item n) (Parse.parse_terminated item' (E' ts) None n).
Proof.
  remember (all_entries ts) as k eqn:Ek. assert (Hk : all_entries ts <= k) by lia. clear Ek. revert ts n Hk.
  induction k as [|k IHk]; intros ts n Hk H.
  - assert (ts = []) as -> by (apply entries_nil; lia). split; reflexivity.
  - destruct ts as [|t r]; [split; reflexivity|]. set (ts := t :: r) in *. assert (NE : ts <> []) by discriminate.
    assert (NE' : E' ts <> []).
    { pose proof (fine_nonempty t r (D_fine _ (proj1 H))) as Hf. fold ts in Hf. destruct (flats ts); [contradiction|discriminate]. }
    rewrite (terminated_item _ _ NE), (terminated_item' _ _ NE'). specialize (Hitem n ts H NE).
    destruct (item n (E ts) ts) as [n1 [[a j]|]], (item' n (E' ts)) as [n1' [[a' j']|]]; destruct Hitem as [Hn Hr]; cbn [fst snd] in *; subst n1'; try contradiction.
    2: { split; reflexivity. }
    destruct Hr as [Ha M]. rewrite terminated_skip, terminated_skip', skipn_map, <- (proj1 M).
    pose proof (ok_advance j _ H) as H1. pose proof (advance_entries j ts) as L1.
    destruct (advance j ts) as [|t1 r1].
    + cbn. split; [reflexivity|]. cbn. rewrite Ha. reflexivity.
    + set (ts1 := t1 :: r1) in *. destruct (fine_next _ _ (D_fine _ (proj1 H1))) as (i & x & N). fold ts1 in N.
      rewrite (terminated_sep _ _ _ _ _ (or_introl eq_refl) N), (E'_some _ _ _ N). cbn [Parse.parse_terminated]. rewrite tok_ann, blind_comma.
      destruct (is_comma x); [|split; reflexivity].
      assert (L2 : all_entries (advance (S i) ts1) <= k) by (rewrite advance_entries; destruct (next_some _ _ _ N) as (_ & _ & L & _); lia).
      destruct (IHk _ n1 L2 (ok_advance (S i) _ H1)) as [G1 G2].
      destruct (parse_terminated item _ _ Item n1) as [n2 o], (Parse.parse_terminated item' _ None n1) as [n2' o']. cbn [fst snd] in *. subst n2'.
      split; [reflexivity|]. cbn [snd]. destruct o as [l|], o' as [l'|]; cbn in *; try discriminate; [|reflexivity].
      injection G2 as G2. rewrite Ha, G2. reflexivity.
Qed.
End Items.

Lemma arg_same n ts : ok ts -> ts <> [] -> corr fx ts (parse_arg P has_func n (E ts) ts) (Parse.parse_arg P has_func n (E' ts)).
Proof.
  intros H NE. unfold parse_arg, Parse.parse_arg.
  assert (Ea : auntil is_comma (E' ts) = E' (until is_comma ts)).
  { rewrite (until_flat _ (D_fine _ (proj1 H))). induction (flats ts) as [|y l IHl]; [reflexivity|]. cbn [map auntil Parse.until]. rewrite tok_ann.
    destruct (is_comma y); [reflexivity|]. rewrite IHl. reflexivity. }
  rewrite Ea. clear Ea. destruct (until_prefix is_comma ts) as [rest Er].
  replace (firstn (all_entries (until is_comma ts)) (E ts)) with (E (until is_comma ts)) by (rewrite Er at 3; symmetry; apply E_firstn).
  pose proof (expr_same n _ (ok_until is_comma _ H)) as He. pose proof (D_advance) as DA.
  destruct (parse_expr P has_func n (E (until is_comma ts)) (until is_comma ts)) as [n1 [[e k] u]],
           (Parse.parse_expr P has_func n (E' (until is_comma ts))) as [n1' [[e' k'] u']].
  destruct He as [Hn (A & Hu & M)]. cbn [fst snd] in Hn, Hu. subst n1' u'. split; [reflexivity|]. cbn [snd]. rewrite exhausted_iff, (proj1 M), skipn_map.
  destruct (skipn k' (flats (until is_comma ts))); cbn [map]; [|exact I]. destruct u; [exact I|]. split; [exact A|].
  rewrite map_length. rewrite Er at 1. apply matches_prefix.
Qed.
Definition vu (p : tuple_value expr * bool) := (map_tuple_value fx (fst p), snd p).
Lemma tuple_value_same n ts : ok ts -> ts <> [] ->
  corr vu ts (parse_tuple_value P has_func n (E ts) ts) (Parse.parse_tuple_value P has_func n (E' ts)).
Proof.
  intros H NE.
  assert (HE : corr vu ts (let (n', r) := parse_expr P has_func n (E ts) ts in let (r0, u) := r in let (e, k) := r0 in (n', Some (TVValue e, u, k)))
                        (let (n', r) := Parse.parse_expr P has_func n (E' ts) in let (r0, u) := r in let (e, k) := r0 in (n', Some (TVValue e, u, k)))).
  { pose proof (expr_same n ts H) as He. destruct (parse_expr P has_func n (E ts) ts) as [n1 [[e k] u]], (Parse.parse_expr P has_func n (E' ts)) as [n1' [[e' k'] u']].
    destruct He as [Hn (A & Hu & M)]. cbn [fst snd] in Hn, Hu. subst n1' u'. split; [reflexivity|]. cbn [snd]. split; [|exact M]. unfold vu. cbn [fst snd map_tuple_value]. rewrite A. reflexivity. }
  unfold parse_tuple_value, Parse.parse_tuple_value. destruct (next ts) as [i [t|]] eqn:N.
  2: { rewrite (seen_none _ _ N). rewrite (E'_none _ _ N) in *. exact HE. }
  rewrite (seen_some _ _ _ N). rewrite (E'_some _ _ _ N) in *.
  destruct t as [x|c j|l|d xs]; cbn [flat1 tok1 Parse.ann] in *; try exact HE. destruct d; try exact HE.
  cbn [a_tuple]. rewrite (E_minus _ _ _ N). destruct (ok_inside _ _ _ _ H N) as (_ & HT & _). specialize (HT n).
  destruct (parse_tuple P has_func (E xs) xs n) as [n1 o], (Parse.parse_tuple P has_func (E' xs) n) as [n1' o'].
  cbn [fst snd] in HT. destruct HT as [<- HT]. destruct o as [[t u]|], o' as [[t' u']|]; cbn in HT; try discriminate; split; try reflexivity; try exact I.
  cbn [snd]. injection HT as Ht <-. split; [|exact (next_matches _ _ _ N)]. unfold vu. cbn [fst snd map_tuple_value]. unfold map_tuple in Ht. rewrite Ht. reflexivity.
Qed.
Lemma pattern_value_same n ts : ok ts -> ts <> [] ->
  corr (fun x => x) ts (parse_pattern_value P n (E ts) ts) (Parse.parse_pattern_value P n (E' ts)).
Proof.
  intros H NE. unfold parse_pattern_value, Parse.parse_pattern_value. destruct (next ts) as [i [t|]] eqn:N.
  2: { rewrite (seen_none _ _ N), (E'_none _ _ N). split; [reflexivity|exact I]. }
  rewrite (seen_some _ _ _ N), (E'_some _ _ _ N), (E_minus _ _ _ N). pose proof (next_matches _ _ _ N) as M.
  destruct t as [x|c j|l|d xs]; cbn [flat1 tok1 Parse.ann]; try (split; [reflexivity|exact I]).
  - split; [reflexivity|]. cbn [snd]. destruct (ident_allowed P x); [|exact I]. split; [reflexivity|exact M].
  - destruct d; try (split; [reflexivity|exact I]). split; [reflexivity|]. cbn [a_pattern snd].
    destruct (ok_inside _ _ _ _ H N) as (_ & _ & HP). rewrite HP. destruct (Parse.parse_pattern P (E' xs)); cbn; [|exact I]. split; [reflexivity|exact M].
Qed.
Lemma unexpected_same (l l' : list (tuple_value expr * bool)) : map vu l = map vu l' ->
  (map_tuple fx (fst (any_unexpected l)), snd (any_unexpected l)) = (map_tuple fx (fst (any_unexpected l')), snd (any_unexpected l')).
Proof.
  unfold any_unexpected, map_tuple. cbn [fst snd]. intros Hl.
  assert (Q : forall l : list (tuple_value expr * bool), map (map_tuple_value fx) (map fst l) = map fst (map vu l)) by (intros; rewrite !map_map; reflexivity).
  assert (Q' : forall l : list (tuple_value expr * bool), existsb snd l = existsb snd (map vu l)).
  { intros l0. induction l0 as [|[a b] l0 IHl]; [reflexivity|]. cbn. rewrite IHl. reflexivity. }
  rewrite !Q, (Q' l), (Q' l'), Hl. reflexivity.
Qed.
Lemma same_level ts : ok ts -> same ts.
Proof.
  intros H. repeat split.
  - unfold parse_args, Parse.parse_args. destruct (terminated_same fx _ _ arg_same ts n H) as [A B].
    destruct (parse_terminated _ _ _ _ n) as [n1 [l|]], (Parse.parse_terminated _ _ None n) as [n1' [l'|]]; cbn in *; try discriminate; exact A.
  - unfold parse_args, Parse.parse_args. destruct (terminated_same fx _ _ arg_same ts n H) as [A B].
    destruct (parse_terminated _ _ _ _ n) as [n1 [l|]], (Parse.parse_terminated _ _ None n) as [n1' [l'|]]; cbn in *; try discriminate; [|reflexivity].
    injection B as B. exact B.
  - unfold parse_tuple, Parse.parse_tuple. destruct (terminated_same vu _ _ tuple_value_same ts n H) as [A B].
    destruct (parse_terminated _ _ _ _ n) as [n1 o], (Parse.parse_terminated _ _ None n) as [n1' o']. exact A.
  - unfold parse_tuple, Parse.parse_tuple. destruct (terminated_same vu _ _ tuple_value_same ts n H) as [A B].
    destruct (parse_terminated _ _ _ _ n) as [n1 [l|]], (Parse.parse_terminated _ _ None n) as [n1' [l'|]]; cbn [fst snd option_map] in *; try discriminate; [|reflexivity].
    injection B as B. f_equal. apply unexpected_same, B.
  - unfold parse_pattern, Parse.parse_pattern. destruct (terminated_same (fun x => x) _ _ pattern_value_same ts 0%N H) as [A B].
    destruct (parse_terminated _ _ _ _ 0%N) as [n1 [l|]], (Parse.parse_terminated _ _ None 0%N) as [n1' [l'|]]; cbn [fst snd option_map] in *; try discriminate; [|reflexivity].
    rewrite !map_id in B. exact B.
Qed.
End Level.

Lemma all_same ts : D ts -> same ts.
Proof.
  remember (sizes ts) as m eqn:Em. assert (Hm : sizes ts <= m) by lia. clear Em. revert ts Hm.
  induction m as [m IH] using lt_wf_ind. intros ts Hm H. apply (same_level m); [|split; assumption].
  intros xs L. apply (IH (sizes xs) L). lia.
Qed.
Lemma top ts : D ts -> ok (sizes ts) ts.
Proof. intros H. split; [exact H|lia]. Qed.
Lemma below ts : forall xs, sizes xs < sizes ts -> D xs -> same xs.
Proof. intros xs _. apply all_same. Qed.

(** ** Definitions *)
Lemma expr_here n ts : D ts -> same_expr ts (parse_expr P has_func n (E ts) ts) (Parse.parse_expr P has_func n (E' ts)).
Proof. intros H. exact (expr_same (sizes ts) (below ts) n ts (top ts H)). Qed.

Definition same_item (ts : list tt) (x y : N * option (spec_item * nat * bool)) : Prop :=
  fst x = fst y /\
  match snd x, snd y with
  | Some (a, e, k, u), Some (a', e', k', u') => a = a' /\ fx e = fx e' /\ u = u' /\ matches ts k k' /\ 0 < k /\ 0 < k'
  | None, None => True
  | _, _ => False
  end.
Lemma item_same n ts : D ts -> same_item ts (parse_spec_item P has_func n (E ts) ts) (Parse.parse_spec_item P has_func n (E' ts)).
Proof.
  intros H. unfold parse_spec_item. destruct (next ts) as [i [t|]] eqn:N.
  2: { rewrite (seen_none _ _ N), (E'_none _ _ N). split; [reflexivity|exact I]. }
  rewrite (seen_some _ _ _ N), (E'_some _ _ _ N). pose proof (next_matches _ _ _ N) as M.
  destruct t as [x|c j|l|d xs]; cbn [flat1 tok1 Parse.ann]; try (split; [reflexivity|exact I]); [|destruct d; (split; [reflexivity|exact I])].
  destruct (next (advance (S i) ts)) as [j [t|]] eqn:N1.
  2: { rewrite (seen_none _ _ N1), (E'_none _ _ N1). split; [reflexivity|exact I]. }
  rewrite (seen_some _ _ _ N1), (E'_some _ _ _ N1), (E_minus2 _ _ _ _ _ N N1). cbn [Parse.parse_spec_item]. rewrite tok1_tok, tok_ann.
  unfold is_equals. rewrite (blind_punct 61%N t). destruct (ident_allowed P x && is_punct 61%N t); [|split; [reflexivity|exact I]].
  pose proof (next_matches _ _ _ N1) as M1. rewrite <- advance_plus in *. pose proof (D_advance (S i + S j) _ H) as H2.
  pose proof (expr_here n _ H2) as He.
  destruct (parse_expr P has_func n (E (advance (S i + S j) ts)) (advance (S i + S j) ts)) as [n1 [[e k] u]],
           (Parse.parse_expr P has_func n (E' (advance (S i + S j) ts))) as [n1' [[e' k'] u']].
  destruct He as [Hn (A & Hu & Mk)]. cbn [fst snd] in Hn, Hu. subst n1' u'. split; [reflexivity|]. cbn [snd].
  rewrite (ends_flat _ _ blind_separator (D_fine _ (D_advance k _ H2))). rewrite skipn_map, toks_ann, (proj1 Mk).
  destruct (ends is_separator _); [|exact I]. repeat split; try exact A; try (apply (matches_plus ts (S i + S j) (1 + 1) k k'); [apply matches_plus; assumption|exact Mk]); lia.
Qed.
Lemma peek_same ts : peek_ident P (E ts) = Parse.peek_ident P (E' ts).
Proof.
  unfold peek_ident, Parse.peek_ident. destruct (next ts) as [i [t|]] eqn:N.
  - rewrite (seen_some _ _ _ N), (E'_some _ _ _ N). destruct t as [x|c j|l|[] xs]; reflexivity.
  - rewrite (seen_none _ _ N), (E'_none _ _ N). reflexivity.
Qed.

Definition same_spec (x : N * option (list spec_item * option bool * list tt * bool)) (y : N * option (list spec_item * option bool * list atok * bool)) : Prop :=
  fst x = fst y /\
  match snd x, snd y with
  | Some (items, used, ts, u), Some (items', used', l, u') =>
      map_items fx items = map_items fx items' /\ used = used' /\ l = E' ts /\ D ts /\ u = u'
  | None, None => True
  | _, _ => False
  end.
Lemma spec_item_step ts used n : ts <> [] ->
  parse_spec P has_func (E ts) ts Item used n =
  match parse_spec_item P has_func n (E ts) ts with
  | (n1, Some (item, S k, u)) =>
      let (n2, rest) := parse_spec P has_func (E ts) ts (Skip (S k)) used n1 in
      (n2, option_map (fun '(items, used', rest', u') => (item :: items, used', rest', u || u')) rest)
  | (n1, _) => (n1, None)
  end.
Proof. intros NE. destruct (E ts) as [|e r] eqn:Ee; [destruct (NE (E_nil _ Ee))|]. reflexivity. Qed.
Lemma spec_item_step' l used n : l <> [] ->
  Parse.parse_spec P has_func l None used n =
  match Parse.parse_spec_item P has_func n l with
  | (n1, Some (item, S k, u)) =>
      let (n2, rest) := Parse.parse_spec P has_func l (Some (S k)) used n1 in
      (n2, option_map (fun '(items, used', rest', u') => (item :: items, used', rest', u || u')) rest)
  | (n1, _) => (n1, None)
  end.
Proof. intros NE. destruct l as [|e r]; [destruct (NE eq_refl)|]. reflexivity. Qed.
Lemma spec_skip k : forall ts used n, parse_spec P has_func (E ts) ts (Skip k) used n = parse_spec P has_func (E (advance k ts)) (advance k ts) (Skip 0) used n.
Proof.
  induction k as [|k IHk]; intros ts used n; [rewrite advance_0; reflexivity|].
  destruct (E ts) as [|e r] eqn:Ee; [rewrite (E_nil _ Ee); reflexivity|]. cbn [parse_spec].
  rewrite (E_advance1 _ _ _ Ee), IHk. rewrite <- advance_plus. reflexivity.
Qed.
Lemma spec_skip' k : forall l used n, Parse.parse_spec P has_func l (Some k) used n = Parse.parse_spec P has_func (skipn k l) (Some 0) used n.
Proof. induction k as [|k IHk]; intros l used n; [reflexivity|]. destruct l as [|e r]; [reflexivity|]. cbn [Parse.parse_spec skipn]. apply IHk. Qed.
Lemma spec_sep ts i t used n p : p = Skip 0 \/ p = Sep -> next ts = (i, Some t) ->
  parse_spec P has_func (E ts) ts p used n =
  if is_separator t then
    let current := is_comma t in
    if match used with Some u => negb (Bool.eqb u current) | None => false end then (n, None)
    else if peek_ident P (E (advance (S i) ts)) then parse_spec P has_func (E (advance (S i) ts)) (advance (S i) ts) Item (Some current) n
    else (n, Some ([], Some current, advance (S i) ts, false))
  else (n, None).
Proof.
  revert i p. induction ts as [|xs r IHt|x r I IHt] using entries_ind; intros i p Hp N; [discriminate| |].
  - rewrite next_invisible in N. destruct (next (xs ++ r)) as [j o] eqn:N'. injection N as <- ->.
    rewrite E_invisible. specialize (IHt j Sep (or_intror eq_refl) eq_refl).
    destruct Hp as [-> | ->]; cbn [parse_spec advance]; rewrite ?advance_0; exact IHt.
  - rewrite (next_visible _ _ I) in N. injection N as <- ->. rewrite (E_visible _ _ I), (advance_visible 0 _ _ I), advance_0.
    destruct Hp as [-> | ->]; cbn [parse_spec]; rewrite (advance_visible 0 _ _ I), advance_0, tok1_tok; reflexivity.
Qed.
Lemma spec_same ts used n : D ts -> ts <> [] ->
  same_spec (parse_spec P has_func (E ts) ts Item used n) (Parse.parse_spec P has_func (E' ts) None used n).
Proof.
  remember (all_entries ts) as k eqn:Ek. assert (Hk : all_entries ts <= k) by lia. clear Ek. revert ts used n Hk.
  induction k as [|k IHk]; intros ts used n Hk H NE; [destruct (NE (entries_nil ts ltac:(lia)))|].
  assert (NE' : E' ts <> []).
  { destruct ts as [|t r]; [contradiction|]. pose proof (fine_nonempty t r (D_fine _ H)) as Hf. destruct (flats (t :: r)); [contradiction|discriminate]. }
  rewrite (spec_item_step _ _ _ NE), (spec_item_step' _ _ _ NE'). pose proof (item_same n ts H) as Hi.
  destruct (parse_spec_item P has_func n (E ts) ts) as [n1 [[[[a e] j] u]|]], (Parse.parse_spec_item P has_func n (E' ts)) as [n1' [[[[a' e'] j'] u']|]];
    destruct Hi as [Hn Hi]; cbn [fst snd] in *; subst n1'; try contradiction.
  2: { split; [reflexivity|exact I]. }
  destruct Hi as (<- & He & <- & M & Hj & Hj'). destruct j as [|j]; [lia|]. destruct j' as [|j']; [lia|].
  rewrite spec_skip, spec_skip', skipn_map, <- (proj1 M).
  pose proof (D_advance (S j) _ H) as H1. pose proof (advance_entries (S j) ts) as L1.
  destruct (advance (S j) ts) as [|t1 r1].
  { split; [reflexivity|]. cbn. rewrite He. repeat split. exact H1. }
  set (ts1 := t1 :: r1) in *. destruct (fine_next _ _ (D_fine _ H1)) as (i & x & N). fold ts1 in N.
  rewrite (spec_sep _ _ _ _ _ _ (or_introl eq_refl) N), (E'_some _ _ _ N). cbn [Parse.parse_spec]. rewrite tok_ann, blind_comma, blind_separator.
  destruct (is_separator x); [|split; [reflexivity|exact I]]. cbv zeta.
  destruct (match used with Some u0 => negb (Bool.eqb u0 (is_comma x)) | None => false end); [split; [reflexivity|exact I]|].
  rewrite <- peek_same. pose proof (D_advance (S i) _ H1) as H2.
  destruct (peek_ident P (E (advance (S i) ts1))) eqn:Ep.
  - assert (L2 : all_entries (advance (S i) ts1) <= k) by (rewrite advance_entries; destruct (next_some _ _ _ N) as (_ & _ & L & _); lia).
    assert (NE2 : advance (S i) ts1 <> []) by (intros Z; rewrite Z in Ep; discriminate).
    destruct (IHk _ (Some (is_comma x)) n1 L2 H2 NE2) as [G1 G2].
    destruct (parse_spec P has_func _ _ Item _ n1) as [n2 o], (Parse.parse_spec P has_func _ None _ n1) as [n2' o']. cbn [fst snd] in *. subst n2'.
    split; [reflexivity|]. cbn [snd]. destruct o as [[[[l us] rs] w]|], o' as [[[[l' us'] rs'] w']|]; cbn [option_map]; try contradiction; [|exact I].
    destruct G2 as (Q1 & Q2 & Q3 & Q4 & Q5). unfold map_items in *. cbn [map fst snd]. rewrite He, Q1, Q5. auto.
  - split; [reflexivity|]. cbn. rewrite He. auto.
Qed.

(** ** Loops *)
Definition su (p : loop_source_value * bool) := (map_source fx (fst p), snd p).
Lemma source_value_same m (Hm : forall xs, sizes xs < m -> D xs -> same xs) n ts : ok m ts -> ts <> [] ->
  corr su ts (parse_source_value P has_func n (E ts) ts) (Parse.parse_source_value P has_func n (E' ts)).
Proof.
  intros H NE.
  assert (HE : forall n, corr su ts (let (n', r) := parse_expr P has_func n (E ts) ts in let (r0, u) := r in let (e, k) := r0 in (n', Some (LSValue e, u, k)))
                        (let (n', r) := Parse.parse_expr P has_func n (E' ts) in let (r0, u) := r in let (e, k) := r0 in (n', Some (LSValue e, u, k)))).
  { intros n0. pose proof (expr_same m Hm n0 ts H) as He. destruct (parse_expr P has_func n0 (E ts) ts) as [n1 [[e k] u]], (Parse.parse_expr P has_func n0 (E' ts)) as [n1' [[e' k'] u']].
    destruct He as [Hn (A & Hu & M)]. cbn [fst snd] in Hn, Hu. subst n1' u'. split; [reflexivity|]. cbn [snd]. split; [|exact M]. unfold su. cbn [fst snd map_source]. rewrite A. reflexivity. }
  unfold parse_source_value, Parse.parse_source_value. destruct (next ts) as [i [t|]] eqn:N.
  2: { rewrite (seen_none _ _ N). rewrite (E'_none _ _ N) in *. apply HE. }
  rewrite (seen_some _ _ _ N). rewrite (E'_some _ _ _ N) in *.
  destruct t as [x|c j|l|d xs]; cbn [flat1 tok1 Parse.ann] in *; try apply HE. destruct d; try apply HE.
  cbn [a_tuple]. rewrite (E_minus _ _ _ N). destruct (ok_inside m Hm _ _ _ _ H N) as (_ & HT & _). specialize (HT n).
  destruct (parse_tuple P has_func (E xs) xs n) as [n1 o], (Parse.parse_tuple P has_func (E' xs) n) as [n1' o'].
  cbn [fst snd] in HT. destruct HT as [<- HT]. destruct o as [[t u]|], o' as [[t' u']|]; cbn in HT; try discriminate.
  - split; [reflexivity|]. cbn [snd]. injection HT as Ht <-. split; [|exact (next_matches _ _ _ N)]. unfold su. cbn [fst snd map_source]. unfold map_tuple. rewrite Ht. reflexivity.
  - apply HE.
Qed.
Lemma unexpected_sources (l l' : list (loop_source_value * bool)) : map su l = map su l' ->
  (map (map_source fx) (fst (any_unexpected l)), snd (any_unexpected l)) = (map (map_source fx) (fst (any_unexpected l')), snd (any_unexpected l')).
Proof.
  unfold any_unexpected. cbn [fst snd]. intros Hl.
  assert (Q : forall l : list (loop_source_value * bool), map (map_source fx) (map fst l) = map fst (map su l)) by (intros; rewrite !map_map; reflexivity).
  assert (Q' : forall l : list (loop_source_value * bool), existsb snd l = existsb snd (map su l)).
  { intros l0. induction l0 as [|[a b] l0 IHl]; [reflexivity|]. cbn. rewrite IHl. reflexivity. }
  rewrite !Q, (Q' l), (Q' l'), Hl. reflexivity.
Qed.
Definition same_sources (x y : N * option (list loop_source_value * bool)) : Prop :=
  fst x = fst y /\
  option_map (fun p => (map (map_source fx) (fst p), snd p)) (snd x) = option_map (fun p => (map (map_source fx) (fst p), snd p)) (snd y).
Lemma source_list_same n ts i t : D ts -> next ts = (i, Some t) ->
  same_sources (parse_source_list P has_func n (tok1 t)) (Parse.parse_source_list P has_func n (Parse.ann P has_func (flat1 t))).
Proof.
  intros H N. unfold parse_source_list, Parse.parse_source_list. rewrite tok1_tok, tok_ann.
  destruct t as [x|c j|l|d xs]; cbn [flat1]; try (split; reflexivity). destruct d; try (split; reflexivity).
  pose proof (D_in_next _ _ _ _ _ H N eq_refl) as Hx.
  destruct (terminated_same (sizes xs) su _ _ (source_value_same (sizes xs) (below xs)) xs n (top xs Hx)) as [A B].
  destruct (parse_terminated _ _ _ _ n) as [n1 o], (Parse.parse_terminated _ _ None n) as [n1' o']. cbn [fst snd] in *. subst n1'. split; [reflexivity|].
  cbn [snd]. destruct o as [l|], o' as [l'|]; cbn [option_map] in *; try discriminate; [|reflexivity]. injection B as B. f_equal. apply unexpected_sources, B.
Qed.
Lemma loop_alias_same ts i t : D ts -> next ts = (i, Some t) ->
  parse_loop_alias P (tok1 t) = Parse.parse_loop_alias P (Parse.ann P has_func (flat1 t)).
Proof.
  intros H N. unfold parse_loop_alias, Parse.parse_loop_alias. rewrite tok1_tok, tok_ann.
  destruct t as [x|c j|l|d xs]; cbn [flat1]; try reflexivity. destruct d; try reflexivity.
  pose proof (D_in_next _ _ _ _ _ H N eq_refl) as Hx. cbn [tok1 Parse.ann a_pattern]. f_equal. apply (all_same _ Hx).
Qed.

Definition same_loops (x : N * option (list loop_item * list entry * list tt * bool)) (y : N * option (list loop_item * list atok * bool)) : Prop :=
  fst x = fst y /\
  match snd x, snd y with
  | Some (items, l, ts, u), Some (items', l', u') =>
      map (map_loop fx) items = map (map_loop fx) items' /\ l = E ts /\ l' = E' ts /\ D ts /\ u = u'
  | None, None => True
  | _, _ => False
  end.
Lemma loops_skip k : forall ts n, parse_loops P has_func (E ts) ts k n = parse_loops P has_func (E (advance k ts)) (advance k ts) 0 n.
Proof.
  induction k as [|k IHk]; intros ts n; [rewrite advance_0; reflexivity|].
  destruct (E ts) as [|e r] eqn:Ee; [rewrite (E_nil _ Ee); reflexivity|]. cbn [parse_loops].
  rewrite (E_advance1 _ _ _ Ee), IHk. rewrite <- advance_plus. reflexivity.
Qed.
Lemma loops_step ts n : ts <> [] ->
  parse_loops P has_func (E ts) ts 0 n =
  match parse_loop P has_func n (E ts) with
  | (n1, None) => (n1, None)
  | (n1, Some None) => (n1, Some ([], E ts, ts, false))
  | (n1, Some (Some (item, u, k))) =>
      let (n2, rest) := parse_loops P has_func (E (advance 1 ts)) (advance 1 ts) (pred k) n1 in
      (n2, option_map (fun '(items, l', ts', u') => (item :: items, l', ts', u || u')) rest)
  end.
Proof.
  intros NE. destruct (E ts) as [|e r] eqn:Ee; [destruct (NE (E_nil _ Ee))|]. cbn [parse_loops].
  rewrite (E_advance1 _ _ _ Ee). reflexivity.
Qed.
Lemma loops_same ts n : D ts -> same_loops (parse_loops P has_func (E ts) ts 0 n) (Parse.parse_loops P has_func (E' ts) n).
Proof.
  remember (all_entries ts) as k eqn:Ek. assert (Hk : all_entries ts <= k) by lia. clear Ek. revert ts n Hk.
  induction k as [|k IHk]; intros ts n Hk H.
  { assert (ts = []) as -> by (apply entries_nil; lia). split; [reflexivity|]. cbn. auto. }
  destruct ts as [|t0 r0]; [split; [reflexivity|cbn; auto]|]. set (ts := t0 :: r0) in *. assert (NE : ts <> []) by discriminate.
  rewrite (loops_step _ _ NE). unfold parse_loop. destruct (fine_next _ _ (D_fine _ H)) as (i & f & N). fold ts in N.
  rewrite (seen_some _ _ _ N). pose proof (E'_some _ _ _ N) as EE. rewrite EE. cbn [Parse.parse_loops]. rewrite tok1_tok, tok_ann, (blind_word _ f).
  destruct (is_word (txt "for") f).
  2: { split; [reflexivity|]. cbn [snd]. repeat split; [symmetry; exact EE|exact H]. }
  pose proof (D_advance (S i) _ H) as H1. set (ts1 := advance (S i) ts) in *.
  destruct (next ts1) as [i1 [pat|]] eqn:N1; [|rewrite (seen_none _ _ N1), (E'_none _ _ N1); split; [reflexivity|exact I]].
  rewrite (seen_some _ _ _ N1), (E'_some _ _ _ N1). pose proof (D_advance (S i1) _ H1) as H2. set (ts2 := advance (S i1) ts1) in *.
  destruct (next ts2) as [i2 [kw|]] eqn:N2; [|rewrite (seen_none _ _ N2), (E'_none _ _ N2); split; [reflexivity|exact I]].
  rewrite (seen_some _ _ _ N2), (E'_some _ _ _ N2). pose proof (D_advance (S i2) _ H2) as H3. set (ts3 := advance (S i2) ts2) in *.
  destruct (next ts3) as [i3 [src|]] eqn:N3; [|rewrite (seen_none _ _ N3), (E'_none _ _ N3); split; [reflexivity|exact I]].
  rewrite (seen_some _ _ _ N3), (E'_some _ _ _ N3). pose proof (D_advance (S i3) _ H3) as H4. set (ts4 := advance (S i3) ts3) in *.
  rewrite (loop_alias_same _ _ _ H1 N1). destruct (Parse.parse_loop_alias P _) as [al|]; [|split; [reflexivity|exact I]].
  rewrite tok1_tok, tok_ann, (blind_word _ kw). destruct (is_word (txt "in") kw); [|split; [reflexivity|exact I]].
  destruct (source_list_same n _ _ _ H3 N3) as [A B].
  destruct (parse_source_list P has_func n (tok1 src)) as [n1 o], (Parse.parse_source_list P has_func n _) as [n1' o']. cbn [fst snd] in *. subst n1'.
  destruct o as [[vals u]|], o' as [[vals' u']|]; cbn [option_map fst snd] in B; try discriminate; [|split; [reflexivity|exact I]].
  injection B as Bv <-.
  assert (L : List.length (E ts) - List.length (E ts4) = S (i + S i1 + S i2 + S i3)).
  { destruct (next_some _ _ _ N) as (_ & _ & La & _). destruct (next_some _ _ _ N1) as (_ & _ & Lb & _).
    destruct (next_some _ _ _ N2) as (_ & _ & Lc & _). destruct (next_some _ _ _ N3) as (_ & _ & Ld & _).
    rewrite !E_length. unfold ts4, ts3, ts2, ts1 in *. rewrite !advance_entries in *. lia. }
  rewrite L. cbn [pred]. rewrite loops_skip, <- advance_plus.
  assert (P4 : advance (1 + (i + S i1 + S i2 + S i3)) ts = ts4).
  { unfold ts4, ts3, ts2, ts1. rewrite <- !advance_plus. f_equal. lia. }
  rewrite P4. assert (L4 : all_entries ts4 <= k) by (rewrite <- P4, advance_entries; lia).
  destruct (IHk ts4 n1 L4 H4) as [G1 G2].
  destruct (parse_loops P has_func (E ts4) ts4 0 n1) as [n2 o], (Parse.parse_loops P has_func (E' ts4) n1) as [n2' o']. cbn [fst snd] in *. subst n2'.
  split; [reflexivity|]. cbn [snd]. destruct o as [[[[l le] lt] w]|], o' as [[[l' le'] w']|]; cbn [option_map]; try contradiction; [|exact I].
  destruct G2 as (Q1 & Q2 & Q3 & Q4 & Q5). cbn [map map_loop loop_pattern loop_values]. unfold map_loop at 1 3. cbn [loop_pattern loop_values]. rewrite Bv, Q1, Q5. auto.
Qed.

(** ** Whole inputs *)
Definition same_header (x : option (option (list loop_item) * option alias_spec * list tt * bool))
  (y : option (option (list loop_item) * option alias_spec * list atok * bool)) : Prop :=
  match x, y with
  | Some (loops, spec, ts, u), Some (loops', spec', l, u') =>
      option_map (map (map_loop fx)) loops = option_map (map (map_loop fx)) loops' /\
      option_map (map_spec fx) spec = option_map (map_spec fx) spec' /\ l = E' ts /\ D ts /\ u = u'
  | None, None => True
  | _, _ => False
  end.
Lemma header_same n ts : D ts -> same_header (parse_header P has_func n ts) (Parse.parse_header P has_func n (E' ts)).
Proof.
  intros H. unfold parse_header, Parse.parse_header. destruct (loops_same ts n H) as [A B].
  destruct (parse_loops P has_func (E ts) ts 0 n) as [n1 o], (Parse.parse_loops P has_func (E' ts) n) as [n1' o']. cbn [fst snd] in *. subst n1'.
  destruct o as [[[[loops l1] ts1] u]|], o' as [[[loops' l1'] u']|]; try contradiction; [|exact I].
  destruct B as (B1 & -> & -> & H1 & <-). rewrite <- peek_same.
  assert (BL : option_map (map (map_loop fx)) (match loops with [] => None | _ => Some loops end) =
               option_map (map (map_loop fx)) (match loops' with [] => None | _ => Some loops' end)).
  { destruct loops, loops'; try discriminate; cbn [option_map]; [reflexivity|]. rewrite B1. reflexivity. }
  destruct (peek_ident P (E ts1)) eqn:Ep.
  - assert (NE : ts1 <> []) by (intros Z; rewrite Z in Ep; discriminate).
    destruct (spec_same ts1 None n1 H1 NE) as [_ S2].
    destruct (parse_spec P has_func (E ts1) ts1 Item None n1) as [n2 o], (Parse.parse_spec P has_func (E' ts1) None None n1) as [n2' o']. cbn [snd] in *.
    destruct o as [[[[items used] ts2] w]|], o' as [[[[items' used'] l2] w']|]; try contradiction; [|exact I].
    destruct S2 as (Q1 & <- & -> & H2 & <-). split; [exact BL|]. split; [|auto]. cbn [option_map]. unfold map_spec. cbn [spec_items is_comma_used]. rewrite Q1. reflexivity.
  - cbn. auto.
Qed.

Definition same_result (p q : parsed) : Prop :=
  p_scope p = p_scope q /\
  match p_ast p, p_ast q with
  | Ok (Some a), Ok (Some b) => over_ast F G a = over_ast F G b
  | Ok None, Ok None => True
  | _, _ => False
  end.
Lemma semicolons_same spec spec' : option_map (map_spec fx) spec = option_map (map_spec fx) spec' -> uses_semicolons spec = uses_semicolons spec'.
Proof. destruct spec as [s|], spec' as [s'|]; try discriminate; [|reflexivity]. cbn. intros H. injection H as _ H. rewrite H. reflexivity. Qed.
Lemma mixed_same t spec spec' : option_map (map_spec fx) spec = option_map (map_spec fx) spec' -> trailing_mixed (flat1 t) spec' = trailing_mixed t spec.
Proof. destruct spec as [s|], spec' as [s'|]; try discriminate; [|reflexivity]. cbn. intros H. injection H as _ H. rewrite H, blind_comma. reflexivity. Qed.

Theorem func_same n ts : D ts -> same_result (parse_func_macro P has_func n ts) (Parse.parse_func_macro P has_func n (flats ts)).
Proof.
  intros H. unfold parse_func_macro, Parse.parse_func_macro. pose proof (header_same n ts H) as Hh.
  destruct (parse_header P has_func n ts) as [[[[loops spec] ts1] u]|], (Parse.parse_header P has_func n (E' ts)) as [[[[loops' spec'] l1] u']|]; try contradiction.
  2: { split; [reflexivity|exact I]. }
  destruct Hh as (HL & HS & -> & H1 & <-). rewrite toks_ann. pose proof (P_block _ H1) as Hb. unfold agree in Hb.
  destruct (pre_block P ts1) as [[[b k] w]|], (pre_block P (flats ts1)) as [[[b' k'] w']|]; try contradiction.
  2: { split; [reflexivity|exact I]. }
  destruct Hb as (HB & <- & M). cbv zeta. rewrite <- (semicolons_same _ _ HS), <- (proj1 M).
  set (done := {| p_scope := Some (uses_semicolons spec); p_ast := Ok (if u || w then None else Some {| ast_loops := loops; ast_spec := spec; ast_block := b |}) |}).
  set (done' := {| p_scope := Some (uses_semicolons spec); p_ast := Ok (if u || w then None else Some {| ast_loops := loops'; ast_spec := spec'; ast_block := b' |}) |}).
  assert (HD : same_result done done').
  { split; [reflexivity|]. cbn. destruct (u || w); [exact I|]. unfold over_ast. cbn. rewrite HL, HS, HB. reflexivity. }
  assert (HE : same_result (syntax_error (Some (uses_semicolons spec))) (syntax_error (Some (uses_semicolons spec)))) by (split; [reflexivity|exact I]).
  destruct (next (advance k ts1)) as [i [t|]] eqn:N.
  - destruct (next_some _ _ _ N) as (_ & -> & _). rewrite (blind_separator t), (mixed_same t _ _ HS).
    destruct (is_separator t && negb (trailing_mixed t spec)); [|exact HE]. rewrite exhausted_iff.
    destruct (flats (advance (S i) (advance k ts1))); [exact HD|exact HE].
  - destruct (next_none _ _ N) as (-> & _). exact HD.
Qed.

Theorem attr_same n attr item :
  D attr -> D [TGroup Brace item] ->
  (forall b k u b' k' u', pre_block P [TGroup Brace item] = Some (b, k, u) -> pre_block P [TGroup Brace (flats item)] = Some (b', k', u') -> k = 1 <-> k' = 1) ->
  same_result (parse_attr_macro P has_func n attr item) (Parse.parse_attr_macro P has_func n (flats attr) (flats item)).
Proof.
  intros H Hi H1. unfold parse_attr_macro, Parse.parse_attr_macro. pose proof (header_same n attr H) as Hh.
  destruct (parse_header P has_func n attr) as [[[[loops spec] ts1] u]|], (Parse.parse_header P has_func n (E' attr)) as [[[[loops' spec'] l1] u']|]; try contradiction.
  2: { split; [reflexivity|exact I]. }
  destruct Hh as (HL & HS & -> & H2 & <-). cbv zeta. rewrite toks_ann, <- (semicolons_same _ _ HS).
  assert (HE : same_result (syntax_error (Some (uses_semicolons spec))) (syntax_error (Some (uses_semicolons spec)))) by (split; [reflexivity|exact I]).
  assert (HK : match skip_separator loops spec ts1, Parse.skip_separator loops' spec' (flats ts1) with
               | Some r, Some r' => flats r = r' | None, None => True | _, _ => False end).
  { unfold skip_separator, Parse.skip_separator. destruct (next ts1) as [i [t|]] eqn:N.
    - destruct (next_some _ _ _ N) as (_ & Ef & _). rewrite Ef. rewrite (blind_separator t). destruct (is_separator t); [|exact Ef].
      destruct spec, spec'; try discriminate; [reflexivity|]. destruct loops, loops'; try discriminate; [exact I|exact Ef].
    - destruct (next_none _ _ N) as (Ef & _). rewrite Ef. reflexivity. }
  destruct (skip_separator loops spec ts1) as [r|], (Parse.skip_separator loops' spec' (flats ts1)) as [r'|]; try contradiction; [|exact HE].
  subst r'. rewrite exhausted_iff. destruct (flats r); [|exact HE]. destruct u; [exact HE|]. cbn [negb orb].
  pose proof (P_block _ Hi) as Hb. unfold agree in Hb. change (flats [TGroup Brace item]) with [TGroup Brace (flats item)] in Hb.
  destruct (pre_block P [TGroup Brace item]) as [[[b k] w]|], (pre_block P [TGroup Brace (flats item)]) as [[[b' k'] w']|]; try contradiction; [|exact HE].
  destruct Hb as (HB & <- & _). specialize (H1 _ _ _ _ _ _ eq_refl eq_refl).
  destruct k as [|[|k]].
  - destruct k' as [|[|k']]; [exact HE|lia|exact HE].
  - assert (k' = 1) as -> by lia. destruct w; [exact HE|]. split; [reflexivity|]. cbn. unfold over_ast. cbn. rewrite HL, HS, HB. reflexivity.
  - destruct k' as [|[|k']]; [exact HE|lia|exact HE].
Qed.
End Same.
