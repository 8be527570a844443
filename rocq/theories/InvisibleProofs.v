(** Lemmas about parsing with invisible groups. *)
From Coq Require Import String Lia.
From Verif Require Import Base Token Types Values Ast Item Interpreter Parse InvisibleParse SpecRepro SpecInvisible.
Open Scope list_scope.

(** ** Positions *)

Lemma all_entries_app a b : all_entries (a ++ b) = all_entries a + all_entries b.
Proof. unfold all_entries. induction a as [|x a IH]; [reflexivity|]. cbn [app fold_right]. rewrite IH. lia. Qed.
Lemma all_entries_invisible xs r : all_entries (TGroup NoDelim xs :: r) = S (all_entries (xs ++ r)).
Proof. rewrite all_entries_app. reflexivity. Qed.
Definition invisible (t : tt) : bool := match t with TGroup NoDelim _ => true | _ => false end.
Lemma all_entries_visible t r : invisible t = false -> all_entries (t :: r) = S (all_entries r).
Proof. destruct t as [| | |[] ?]; try reflexivity. discriminate. Qed.

(** Going through the entries of a position. *)
Lemma entries_ind (Q : list tt -> Prop) :
  Q [] -> (forall xs r, Q (xs ++ r) -> Q (TGroup NoDelim xs :: r)) ->
  (forall t r, invisible t = false -> Q r -> Q (t :: r)) -> forall ts, Q ts.
Proof.
  intros H0 H1 H2. assert (H : forall m ts, all_entries ts <= m -> Q ts).
  { induction m as [|m IH]; intros [|t r] Hm; try exact H0.
    - destruct (invisible t) eqn:E.
      + destruct t as [| | |[] xs]; try discriminate. rewrite all_entries_invisible in Hm. lia.
      + rewrite (all_entries_visible _ _ E) in Hm. lia.
    - destruct (invisible t) eqn:E.
      + destruct t as [| | |[] xs]; try discriminate. rewrite all_entries_invisible in Hm. apply H1, IH. lia.
      + rewrite (all_entries_visible _ _ E) in Hm. apply H2; [exact E|]. apply IH. lia. }
  intros ts. apply (H (all_entries ts)). lia.
Qed.

Lemma advance_visible k t r : invisible t = false -> advance (S k) (t :: r) = advance k r.
Proof. destruct t as [| | |[] ?]; try reflexivity. discriminate. Qed.
Lemma taken_visible k t r : invisible t = false -> taken (S k) (t :: r) = t :: taken k r.
Proof. destruct t as [| | |[] ?]; try reflexivity. discriminate. Qed.
Lemma advance_nil k : advance k [] = [].
Proof. destruct k; reflexivity. Qed.
Lemma taken_nil k : taken k [] = [].
Proof. destruct k; reflexivity. Qed.
Lemma advance_0 ts : advance 0 ts = ts.
Proof. destruct ts; reflexivity. Qed.
Lemma advance_plus j k ts : advance (j + k) ts = advance k (advance j ts).
Proof.
  revert ts. induction j as [|j IH]; intros ts; [cbn [plus]; rewrite advance_0; reflexivity|].
  destruct ts as [|t r]; [rewrite !advance_nil; reflexivity|].
  destruct (invisible t) eqn:E.
  - destruct t as [| | |[] xs]; try discriminate. cbn [plus advance]. apply IH.
  - cbn [plus]. rewrite !(advance_visible _ _ _ E). apply IH.
Qed.
Lemma advance_entries k ts : all_entries (advance k ts) = all_entries ts - k.
Proof.
  revert ts. induction k as [|k IH]; intros ts; [rewrite advance_0; lia|].
  destruct ts as [|t r]; [reflexivity|]. destruct (invisible t) eqn:E.
  - destruct t as [| | |[] xs]; try discriminate. cbn [advance]. rewrite IH, all_entries_invisible. lia.
  - rewrite (advance_visible _ _ _ E), IH, (all_entries_visible _ _ E). lia.
Qed.
Lemma advance_all ts : advance (all_entries ts) ts = [].
Proof.
  assert (H : all_entries (advance (all_entries ts) ts) = 0) by (rewrite advance_entries; lia).
  destruct (advance _ _) as [|t r]; [reflexivity|]. destruct t as [| | |[] xs]; discriminate.
Qed.
Lemma entries_nil ts : all_entries ts = 0 -> ts = [].
Proof. destruct ts as [|t r]; [reflexivity|]. destruct t as [| | |[] xs]; discriminate. Qed.

Lemma flats_app a b : flats (a ++ b) = flats a ++ flats b.
Proof. apply flat_map_app. Qed.
Lemma flats_invisible xs r : flats (TGroup NoDelim xs :: r) = flats (xs ++ r).
Proof. rewrite flats_app. reflexivity. Qed.
(** A token tree that is not an invisible group, without those inside. *)
Definition flat1 (t : tt) : tt := match t with TGroup d ts => TGroup d (flats ts) | _ => t end.
Lemma flat_visible t : invisible t = false -> flat t = [flat1 t].
Proof. destruct t as [| | |[] ?]; try reflexivity. discriminate. Qed.
Lemma flats_visible t r : invisible t = false -> flats (t :: r) = flat1 t :: flats r.
Proof. intros E. unfold flats. cbn [flat_map]. rewrite (flat_visible _ E). reflexivity. Qed.

Lemma taken_are_visible k ts : Forall (fun t => invisible t = false) (taken k ts).
Proof.
  revert ts. induction k as [|k IH]; intros ts; [constructor|]. destruct ts as [|t r]; [constructor|].
  destruct (invisible t) eqn:E.
  - destruct t as [| | |[] xs]; try discriminate. apply IH.
  - rewrite (taken_visible _ _ _ E). constructor; [exact E|apply IH].
Qed.
Lemma flats_taken k ts : flats (taken k ts) = map flat1 (taken k ts).
Proof.
  induction (taken_are_visible k ts) as [|t l E _ IH]; [reflexivity|]. rewrite (flats_visible _ _ E), IH. reflexivity.
Qed.
Lemma flats_cut k ts : flats ts = flats (taken k ts) ++ flats (advance k ts).
Proof.
  revert ts. induction k as [|k IH]; intros ts; [destruct ts; reflexivity|]. destruct ts as [|t r]; [reflexivity|].
  destruct (invisible t) eqn:E.
  - destruct t as [| | |[] xs]; try discriminate. cbn [advance taken]. rewrite flats_invisible. apply IH.
  - rewrite (taken_visible _ _ _ E), (advance_visible _ _ _ E), !(flats_visible _ _ E), (IH r). reflexivity.
Qed.

(** [k] entries ahead is the same place as [k'] token trees ahead without the groups. *)
Definition matches (ts : list tt) (k k' : nat) : Prop :=
  flats (advance k ts) = skipn k' (flats ts) /\ flats (taken k ts) = firstn k' (flats ts).
Lemma matches_taken ts k : matches ts k (List.length (taken k ts)).
Proof.
  assert (L : List.length (flats (taken k ts)) = List.length (taken k ts)) by (rewrite flats_taken; apply map_length).
  split; rewrite (flats_cut k ts), <- L.
  - rewrite skipn_app, skipn_all, Nat.sub_diag. reflexivity.
  - rewrite firstn_app, firstn_all, Nat.sub_diag. cbn. rewrite app_nil_r. reflexivity.
Qed.
Lemma matches_0 ts : matches ts 0 0.
Proof. split; destruct ts; reflexivity. Qed.

Lemma skipn_skipn {A} i j (l : list A) : skipn i (skipn j l) = skipn (j + i) l.
Proof. revert l. induction j as [|j IH]; intros l; [reflexivity|]. destruct l as [|x l]; [apply skipn_nil|]. apply IH. Qed.
Lemma taken_plus j k ts : taken (j + k) ts = taken j ts ++ taken k (advance j ts).
Proof.
  revert ts. induction j as [|j IH]; intros ts; [cbn [plus]; destruct ts; reflexivity|].
  destruct ts as [|t r]; [rewrite advance_nil, !taken_nil; reflexivity|].
  destruct (invisible t) eqn:E.
  - destruct t as [| | |[] xs]; try discriminate. cbn [plus advance taken]. apply IH.
  - cbn [plus]. rewrite !(advance_visible _ _ _ E), !(taken_visible _ _ _ E), IH. reflexivity.
Qed.
Lemma firstn_plus {A} j k (l : list A) : firstn (j + k) l = firstn j l ++ firstn k (skipn j l).
Proof. revert l. induction j as [|j IH]; intros l; [reflexivity|]. destruct l as [|x l]; [cbn; rewrite firstn_nil; reflexivity|]. cbn. rewrite IH. reflexivity. Qed.
Lemma matches_plus ts j j' k k' : matches ts j j' -> matches (advance j ts) k k' -> matches ts (j + k) (j' + k').
Proof.
  intros [A1 A2] [B1 B2]. split.
  - rewrite advance_plus, B1, A1, skipn_skipn. reflexivity.
  - rewrite taken_plus, flats_app, A2, B2, A1, firstn_plus. reflexivity.
Qed.

(** ** The next token *)
Lemma next_app a b : next (a ++ b) = match next a with
                                     | (n, Some t) => (n, Some t)
                                     | (n, None) => let (m, o) := next b in (n + m, o)
                                     end.
Proof.
  induction a as [|x a IH]; [cbn; destruct (next b); reflexivity|]. cbn [app next].
  destruct (next_in x) as [n [t|]]; [reflexivity|]. rewrite IH. destruct (next a) as [m [t|]]; [reflexivity|].
  destruct (next b) as [p o]. f_equal. lia.
Qed.
Lemma next_in_group xs : next_in (TGroup NoDelim xs) = let (n, o) := next xs in (S n, o).
Proof.
  cbn [next_in]. match goal with |- (let (n, o) := ?f xs in _) = _ => assert (E : forall l, f l = next l) end.
  { induction l as [|x l IH]; [reflexivity|]. cbn [next]. rewrite IH. reflexivity. }
  rewrite E. reflexivity.
Qed.
Lemma next_invisible xs r : next (TGroup NoDelim xs :: r) = let (n, o) := next (xs ++ r) in (S n, o).
Proof.
  rewrite next_app. cbn [next]. rewrite next_in_group. destruct (next xs) as [n [t|]]; [reflexivity|].
  destruct (next r) as [m o]. reflexivity.
Qed.
Lemma next_visible t r : invisible t = false -> next (t :: r) = (0, Some t).
Proof. destruct t as [| | |[] ?]; try reflexivity. discriminate. Qed.

Lemma next_some ts i t : next ts = (i, Some t) ->
  invisible t = false /\ flats ts = flat1 t :: flats (advance (S i) ts) /\ S i <= all_entries ts /\ taken (S i) ts = [t].
Proof.
  revert i. induction ts as [|xs r IH|x r E IH] using entries_ind; intros i H; [discriminate| |].
  - rewrite next_invisible in H. destruct (next (xs ++ r)) as [j o] eqn:N. injection H as <- ->.
    destruct (IH j eq_refl) as (A & B & C & D). rewrite flats_invisible, all_entries_invisible. cbn [taken].
    repeat split; [exact A|exact B|lia|exact D].
  - rewrite (next_visible _ _ E) in H. injection H as <- ->. rewrite (flats_visible _ _ E), (advance_visible _ _ _ E), (all_entries_visible _ _ E), (taken_visible _ _ _ E).
    rewrite advance_0. repeat split; [exact E|lia].
Qed.
Lemma next_none ts i : next ts = (i, None) -> flats ts = [] /\ i = all_entries ts.
Proof.
  revert i. induction ts as [|xs r IH|x r E IH] using entries_ind; intros i H.
  - injection H as <-. split; reflexivity.
  - rewrite next_invisible in H. destruct (next (xs ++ r)) as [j o] eqn:N. injection H as <- ->.
    destruct (IH j eq_refl) as (A & ->). rewrite flats_invisible, all_entries_invisible. split; [exact A|reflexivity].
  - rewrite (next_visible _ _ E) in H. discriminate.
Qed.
Lemma next_matches ts i t : next ts = (i, Some t) -> matches ts (S i) 1.
Proof.
  intros H. destruct (next_some _ _ _ H) as (_ & _ & _ & T). pose proof (matches_taken ts (S i)) as M. rewrite T in M. exact M.
Qed.
Lemma exhausted_iff ts : exhausted ts = match flats ts with [] => true | _ => false end.
Proof.
  unfold exhausted. destruct (next ts) as [i [t|]] eqn:N; cbn [snd].
  - destruct (next_some _ _ _ N) as (_ & -> & _). reflexivity.
  - destruct (next_none _ _ N) as (-> & _). reflexivity.
Qed.

(** ** Kinds of tokens *)
Definition blind (p : tt -> bool) : Prop := forall t, p (flat1 t) = p t.
Lemma blind_punct c : blind (is_punct c). Proof. intros []; reflexivity. Qed.
Lemma blind_word x : blind (is_word x). Proof. intros []; reflexivity. Qed.
Lemma blind_comma : blind is_comma. Proof. apply blind_punct. Qed.
Lemma blind_separator : blind is_separator.
Proof. intros t. unfold is_separator, is_comma, is_semicolon. rewrite !blind_punct. reflexivity. Qed.

(** ** Fine input *)
Lemma all_fine_app a b : all_fine (a ++ b) = all_fine a && all_fine b.
Proof. apply forallb_app. Qed.
Lemma fine_group xs : fine (TGroup NoDelim xs) = true ->
  all_fine xs = true /\ flats xs <> [] /\ existsb is_comma (flats xs) = false.
Proof.
  cbn [fine]. intros H. apply andb_prop in H as [H1 H2]. split; [exact H1|].
  destruct (flats xs); [discriminate|]. split; [discriminate|]. destruct (existsb is_comma _); [discriminate|reflexivity].
Qed.
Lemma fine_nonempty t r : all_fine (t :: r) = true -> flats (t :: r) <> [].
Proof.
  unfold all_fine. cbn [forallb]. intros H. apply andb_prop in H as [H _]. destruct (invisible t) eqn:E.
  - destruct t as [| | |[] xs]; try discriminate. destruct (fine_group _ H) as (_ & N & _). rewrite flats_invisible, flats_app.
    destruct (flats xs); [contradiction|discriminate].
  - rewrite (flats_visible _ _ E). discriminate.
Qed.
Lemma fine_next t r : all_fine (t :: r) = true -> exists i x, next (t :: r) = (i, Some x).
Proof.
  intros H. destruct (next (t :: r)) as [i [x|]] eqn:N; [eauto|]. destruct (next_none _ _ N) as (N' & _).
  destruct (fine_nonempty _ _ H N').
Qed.
Lemma ends_flat term ts : blind term -> all_fine ts = true -> ends_at term ts = ends term (flats ts).
Proof.
  intros B F. destruct ts as [|t r]; [reflexivity|]. destruct (fine_next _ _ F) as (i & x & N).
  unfold ends_at. rewrite N. cbn [snd]. destruct (next_some _ _ _ N) as (_ & -> & _). cbn [ends]. rewrite B. reflexivity.
Qed.

Lemma until_flat ts : all_fine ts = true -> flats (until is_comma ts) = Parse.until is_comma (flats ts).
Proof.
  induction ts as [|t r IH]; intros F; [reflexivity|]. destruct (fine_next _ _ F) as (i & x & N).
  cbn [until]. rewrite N. cbn [snd]. unfold all_fine in F. cbn [forallb] in F. apply andb_prop in F as [F1 F2].
  specialize (IH F2). destruct (invisible t) eqn:E.
  - destruct t as [| | |[] xs]; try discriminate. destruct (fine_group _ F1) as (_ & NE & NC).
    assert (Hx : is_comma x = false).
    { rewrite next_invisible, next_app in N. destruct (next xs) as [j [y|]] eqn:Nx.
      - injection N as <- <-. destruct (next_some _ _ _ Nx) as (_ & Ef & _). rewrite Ef in NC. cbn [existsb] in NC.
        apply Bool.orb_false_iff in NC as [NC _]. rewrite blind_comma in NC. exact NC.
      - destruct (next_none _ _ Nx) as (Ef & _). contradiction. }
    rewrite Hx. rewrite !flats_invisible, !flats_app, IH. clear - NC. induction (flats xs) as [|y l IHl]; [reflexivity|].
    cbn [existsb] in NC. apply Bool.orb_false_iff in NC as [N1 N2]. cbn [app Parse.until]. rewrite N1, (IHl N2). reflexivity.
  - rewrite (next_visible _ _ E) in N. injection N as <- <-. rewrite (flats_visible t r E). cbn [Parse.until]. rewrite blind_comma.
    destruct (is_comma t); [reflexivity|]. rewrite (flats_visible _ _ E), IH. reflexivity.
Qed.
Lemma until_prefix term ts : exists rest, ts = until term ts ++ rest.
Proof.
  induction ts as [|t r [rest IH]]; [exists []; reflexivity|]. cbn [until].
  destruct (match snd (next (t :: r)) with Some x => term x | None => false end); [exists (t :: r); reflexivity|].
  exists rest. cbn [app]. rewrite <- IH. reflexivity.
Qed.
Lemma advance_app a b : advance (all_entries a) (a ++ b) = b.
Proof.
  induction a as [|xs r IH|x r E IH] using entries_ind; [apply advance_0| |].
  - rewrite all_entries_invisible. cbn [app advance]. rewrite app_assoc. exact IH.
  - rewrite (all_entries_visible _ _ E). cbn [app]. rewrite (advance_visible _ _ _ E). exact IH.
Qed.
Lemma taken_app a b : flats (taken (all_entries a) (a ++ b)) = flats a.
Proof.
  induction a as [|xs r IH|x r E IH] using entries_ind; [destruct b; reflexivity| |].
  - rewrite all_entries_invisible, flats_invisible. cbn [app taken]. rewrite app_assoc. exact IH.
  - rewrite (all_entries_visible _ _ E). cbn [app]. rewrite (taken_visible _ _ _ E), !(flats_visible _ _ E), IH. reflexivity.
Qed.
Lemma matches_prefix a b : matches (a ++ b) (all_entries a) (List.length (flats a)).
Proof.
  split; rewrite ?advance_app, ?taken_app, flats_app.
  - rewrite skipn_app, skipn_all, Nat.sub_diag. reflexivity.
  - rewrite firstn_app, firstn_all, Nat.sub_diag. cbn. rewrite app_nil_r. reflexivity.
Qed.

(** ** Distances *)
Definition leaf_sum (ts : list tt) : nat := fold_right (fun t n => leaf_count t + n) 0 ts.
Lemma leaf_sum_app a b : leaf_sum (a ++ b) = leaf_sum a + leaf_sum b.
Proof. induction a as [|x a IH]; [reflexivity|]. cbn [app leaf_sum fold_right] in *. fold (leaf_sum (a ++ b)) (leaf_sum a). lia. Qed.
Lemma leaf_flat t : leaf_sum (flat t) = leaf_count t.
Proof.
  induction t as [x|c j|l|d ts IH] using tt_ind'; try reflexivity.
  assert (E : leaf_sum (flats ts) = leaf_sum ts).
  { induction IH as [|t ts H _ IHl]; [reflexivity|]. unfold flats. cbn [flat_map]. rewrite leaf_sum_app, H. fold (flats ts). rewrite IHl. reflexivity. }
  destruct d; cbn [flat]; fold (flats ts); try (cbn [leaf_sum fold_right leaf_count]; fold (leaf_sum (flats ts)) (leaf_sum ts); lia).
Qed.
Lemma leaf_flats ts : leaf_sum (flats ts) = leaf_sum ts.
Proof. induction ts as [|t ts IH]; [reflexivity|]. unfold flats. cbn [flat_map]. rewrite leaf_sum_app, leaf_flat. fold (flats ts). rewrite IH. reflexivity. Qed.
Lemma distance_flat ts k k' : matches ts k k' -> distance k ts = distance_to k' (flats ts).
Proof. intros [_ M]. unfold distance, distance_to. fold (leaf_sum (taken k ts)) (leaf_sum (firstn k' (flats ts))). rewrite <- M, leaf_flats. reflexivity. Qed.
