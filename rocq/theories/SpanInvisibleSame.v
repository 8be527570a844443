(** Parsing with spans on input with invisible groups, and on the same tokens without them. *)
From Coq Require Import String Lia Wf_nat.
From Verif Require Import Base Token Types Values Ast Item Interpreter Parse InvisibleParse SpecInvisible InvisibleProofs InvisibleSame
  SpanTokens SpanValues SpanEval SpanItem SpanParse SpanParseProofs SpanInvisible SpanInvisibleProofs SpecSpanInvisible SpanInvisibleInstance.
Open Scope list_scope.
Local Notation place := SpanParse.place.

(** ** Positions *)
Definition sinvisible (t : stt) : bool := match t with SGroup NoDelim _ _ => true | _ => false end.
Lemma sinvisible_erase t : invisible (erase t) = sinvisible t.
Proof. destruct t as [| | |[] ? ?]; reflexivity. Qed.
Lemma entries_app a b : entries_of (a ++ b) = entries_of a + entries_of b.
Proof. unfold entries_of. rewrite map_app. apply all_entries_app. Qed.
Lemma entries_invisible xs s r : entries_of (SGroup NoDelim xs s :: r) = S (entries_of (xs ++ r)).
Proof. unfold entries_of. cbn [map erase]. rewrite all_entries_invisible, map_app. reflexivity. Qed.
Lemma entries_visible t r : sinvisible t = false -> entries_of (t :: r) = S (entries_of r).
Proof. intros H. unfold entries_of. cbn [map]. apply all_entries_visible. rewrite sinvisible_erase. exact H. Qed.
Lemma sentries_nil ts : entries_of ts = 0 -> ts = [].
Proof. intros H. apply entries_nil in H. destruct ts; [reflexivity|discriminate]. Qed.
Lemma sentries_ind (Q : list stt -> Prop) :
  Q [] -> (forall xs s r, Q (xs ++ r) -> Q (SGroup NoDelim xs s :: r)) ->
  (forall t r, sinvisible t = false -> Q r -> Q (t :: r)) -> forall ts, Q ts.
Proof.
  intros H0 H1 H2. assert (H : forall m ts, entries_of ts <= m -> Q ts).
  { induction m as [|m IH]; intros [|t r] Hm; try exact H0.
    - pose proof (sentries_nil (t :: r)) as Z. discriminate Z. lia.
    - destruct (sinvisible t) eqn:E.
      + destruct t as [| | |[] xs s]; try discriminate. rewrite entries_invisible in Hm. apply H1, IH. lia.
      + rewrite (entries_visible _ _ E) in Hm. apply H2; [exact E|]. apply IH. lia. }
  intros ts. apply (H (entries_of ts)). lia.
Qed.
Lemma sadvance_visible k t r : sinvisible t = false -> sadvance (S k) (t :: r) = sadvance k r.
Proof. destruct t as [| | |[] ? ?]; try reflexivity. discriminate. Qed.
Lemma sadvance_nil k : sadvance k [] = [].
Proof. destruct k; reflexivity. Qed.
Lemma sadvance_0 ts : sadvance 0 ts = ts.
Proof. destruct ts; reflexivity. Qed.
Lemma sadvance_plus j k ts : sadvance (j + k) ts = sadvance k (sadvance j ts).
Proof.
  revert ts. induction j as [|j IH]; intros ts; [cbn [plus]; rewrite sadvance_0; reflexivity|].
  destruct ts as [|t r]; [rewrite !sadvance_nil; reflexivity|]. destruct (sinvisible t) eqn:E.
  - destruct t as [| | |[] xs s]; try discriminate. cbn [plus sadvance]. apply IH.
  - cbn [plus]. rewrite !(sadvance_visible _ _ _ E). apply IH.
Qed.
Lemma sadvance_entries k ts : entries_of (sadvance k ts) = entries_of ts - k.
Proof. unfold entries_of. rewrite sadvance_erase. apply advance_entries. Qed.

Lemma sflats_app a b : sflats (a ++ b) = sflats a ++ sflats b.
Proof. apply flat_map_app. Qed.
Lemma sflats_invisible xs s r : sflats (SGroup NoDelim xs s :: r) = sflats (xs ++ r).
Proof. rewrite sflats_app. reflexivity. Qed.
Definition sflat1 (t : stt) : stt := match t with SGroup d ts s => SGroup d (sflats ts) s | _ => t end.
Lemma sflats_visible t r : sinvisible t = false -> sflats (t :: r) = sflat1 t :: sflats r.
Proof. destruct t as [| | |[] ? ?]; try reflexivity. discriminate. Qed.
Lemma sflat1_erase t : erase (sflat1 t) = flat1 (erase t).
Proof. destruct t as [| | |d ts s]; try reflexivity. cbn [sflat1 erase flat1]. rewrite sflats_erase. reflexivity. Qed.
Lemma sflat1_span t : span_of (sflat1 t) = span_of t.
Proof. destruct t; reflexivity. Qed.
Lemma sflat1_open t : open_span (sflat1 t) = open_span t.
Proof. destruct t; reflexivity. Qed.
Lemma sflat_idem t : sflats (sflat t) = sflat t.
Proof.
  induction t as [x s|c j s|l s|d ts s IH] using stt_ind'; try reflexivity.
  assert (E : sflats (sflats ts) = sflats ts).
  { induction IH as [|t ts H _ IHl]; [reflexivity|]. unfold sflats at 2 3. cbn [flat_map]. rewrite sflats_app, H. fold (sflats ts). rewrite IHl. reflexivity. }
  destruct d; cbn [sflat]; fold (sflats ts); [| | |exact E]; unfold sflats at 1; cbn [flat_map sflat]; fold (sflats (sflats ts)); rewrite E; reflexivity.
Qed.
Lemma sflats_idem ts : sflats (sflats ts) = sflats ts.
Proof. induction ts as [|t ts IH]; [reflexivity|]. unfold sflats at 2 3. cbn [flat_map]. rewrite sflats_app, sflat_idem. fold (sflats ts). rewrite IH. reflexivity. Qed.

(** ** The next token *)
Lemma snext_app a b : snext (a ++ b) = match snext a with
                                       | (n, Some t) => (n, Some t)
                                       | (n, None) => let (m, o) := snext b in (n + m, o)
                                       end.
Proof.
  induction a as [|x a IH]; [cbn; destruct (snext b); reflexivity|]. cbn [app snext].
  destruct (snext_in x) as [n [t|]]; [reflexivity|]. rewrite IH. destruct (snext a) as [m [t|]]; [reflexivity|].
  destruct (snext b) as [p o]. f_equal. lia.
Qed.
Lemma snext_in_group xs s : snext_in (SGroup NoDelim xs s) = let (n, o) := snext xs in (S n, o).
Proof.
  cbn [snext_in]. match goal with |- (let (n, o) := ?f xs in _) = _ => assert (E : forall l, f l = snext l) end.
  { induction l as [|x l IH]; [reflexivity|]. cbn [snext]. rewrite IH. reflexivity. }
  rewrite E. reflexivity.
Qed.
Lemma snext_invisible xs s r : snext (SGroup NoDelim xs s :: r) = let (n, o) := snext (xs ++ r) in (S n, o).
Proof.
  rewrite snext_app. cbn [snext]. rewrite snext_in_group. destruct (snext xs) as [n [t|]]; [reflexivity|].
  destruct (snext r) as [m o]. reflexivity.
Qed.
Lemma snext_visible t r : sinvisible t = false -> snext (t :: r) = (0, Some t).
Proof. destruct t as [| | |[] ? ?]; try reflexivity. discriminate. Qed.
Lemma snext_some ts i t : snext ts = (i, Some t) ->
  sinvisible t = false /\ sflats ts = sflat1 t :: sflats (sadvance (S i) ts) /\ S i <= entries_of ts.
Proof.
  revert i. induction ts as [|xs s r IH|x r E IH] using sentries_ind; intros i H; [discriminate| |].
  - rewrite snext_invisible in H. destruct (snext (xs ++ r)) as [j o] eqn:N. injection H as <- ->.
    destruct (IH j eq_refl) as (A & B & C). rewrite sflats_invisible, entries_invisible. repeat split; [exact A|exact B|lia].
  - rewrite (snext_visible _ _ E) in H. injection H as <- ->. rewrite (sflats_visible _ _ E), (sadvance_visible _ _ _ E), (entries_visible _ _ E), sadvance_0.
    repeat split; [exact E|lia].
Qed.
Lemma snext_none ts i : snext ts = (i, None) -> sflats ts = [].
Proof.
  revert i. induction ts as [|xs s r IH|x r E IH] using sentries_ind; intros i H; [reflexivity| |].
  - rewrite snext_invisible in H. destruct (snext (xs ++ r)) as [j o] eqn:N. injection H as <- ->.
    rewrite sflats_invisible. apply (IH j eq_refl).
  - rewrite (snext_visible _ _ E) in H. discriminate.
Qed.
Lemma snext_plain ts i o : snext ts = (i, o) -> next (map erase ts) = (i, option_map erase o).
Proof. intros H. rewrite snext_erase, H. reflexivity. Qed.

(** [k] entries ahead is the same place as [k'] token trees ahead without the groups. *)
Definition smatches (ts : list stt) (k k' : nat) : Prop :=
  sflats (sadvance k ts) = skipn k' (sflats ts) /\ matches (map erase ts) k k'.
Lemma smatches_taken ts k : smatches ts k (List.length (taken k (map erase ts))).
Proof.
  split; [|apply matches_taken]. revert ts. induction k as [|k IH]; intros ts; [rewrite sadvance_0; destruct ts; reflexivity|].
  destruct ts as [|t r]; [reflexivity|]. destruct (sinvisible t) eqn:E.
  - destruct t as [| | |[] xs s]; try discriminate. rewrite sflats_invisible. cbn [sadvance map erase taken]. rewrite <- map_app. apply IH.
  - rewrite (sadvance_visible _ _ _ E), (sflats_visible _ _ E). cbn [map]. rewrite taken_visible by (rewrite sinvisible_erase; exact E). apply IH.
Qed.
Lemma smatches_plus ts j j' k k' : smatches ts j j' -> smatches (sadvance j ts) k k' -> smatches ts (j + k) (j' + k').
Proof.
  intros [A1 A2] [B1 B2]. rewrite sadvance_erase in B2. split; [|apply matches_plus; assumption].
  rewrite sadvance_plus, B1, A1, skipn_skipn. reflexivity.
Qed.
Lemma snext_matches ts i t : snext ts = (i, Some t) -> smatches ts (S i) 1.
Proof.
  intros H. split; [|exact (next_matches _ _ _ (snext_plain _ _ _ H))]. destruct (snext_some _ _ _ H) as (_ & -> & _). reflexivity.
Qed.

(** ** Fine input *)
Definition sfine (ts : list stt) : Prop := all_fine (map erase ts) = true.
Lemma sfine_nonempty t r : sfine (t :: r) -> sflats (t :: r) <> [].
Proof. intros H E. apply (fine_nonempty _ _ H). pose proof (sflats_erase (t :: r)) as Q. rewrite E in Q. symmetry. exact Q. Qed.
Lemma sfine_next t r : sfine (t :: r) -> exists i x, snext (t :: r) = (i, Some x).
Proof.
  intros H. destruct (snext (t :: r)) as [i [x|]] eqn:N; [eauto|]. destruct (sfine_nonempty _ _ H (snext_none _ _ N)).
Qed.
Lemma sfine_nil ts : sfine ts -> sflats ts = [] -> ts = [].
Proof. intros H E. destruct ts as [|t r]; [reflexivity|]. destruct (sfine_nonempty _ _ H E). Qed.
Lemma sfine_none ts i : sfine ts -> snext ts = (i, None) -> ts = [].
Proof. intros H N. apply sfine_nil; [exact H|]. exact (snext_none _ _ N). Qed.
Lemma sends_flat term ts : blind term -> sfine ts -> ends_at term (map erase ts) = ends term (map erase (sflats ts)).
Proof. intros B F. rewrite sflats_erase. apply ends_flat; assumption. Qed.
Lemma suntil_prefix term ts : exists rest, ts = through_until term ts ++ rest.
Proof.
  induction ts as [|t r [rest IH]]; [exists []; reflexivity|]. cbn [through_until].
  destruct (match snd (snext (t :: r)) with Some x => term (erase x) | None => false end); [exists (t :: r); reflexivity|].
  exists rest. cbn [app]. rewrite <- IH. reflexivity.
Qed.
Lemma suntil_flat ts : sfine ts -> sflats (through_until is_comma ts) = suntil is_comma (sflats ts).
Proof.
  induction ts as [|t r IH]; intros F; [reflexivity|]. destruct (sfine_next _ _ F) as (i & x & N).
  cbn [through_until]. rewrite N. cbn [snd]. unfold sfine, all_fine in F. cbn [map forallb] in F. apply andb_prop in F as [F1 F2].
  specialize (IH F2). destruct (sinvisible t) eqn:E.
  - destruct t as [| | |[] xs s]; try discriminate. destruct (fine_group _ F1) as (_ & NE & NC). rewrite <- sflats_erase in NE, NC.
    assert (Hx : is_comma (erase x) = false).
    { rewrite snext_invisible, snext_app in N. destruct (snext xs) as [j [y|]] eqn:Nx.
      - injection N as <- <-. destruct (snext_some _ _ _ Nx) as (_ & Ef & _). rewrite Ef in NC. cbn [map existsb] in NC.
        apply Bool.orb_false_iff in NC as [NC _]. rewrite sflat1_erase, blind_comma in NC. exact NC.
      - rewrite (snext_none _ _ Nx) in NE. contradiction. }
    rewrite Hx. rewrite !sflats_invisible, !sflats_app, IH. clear - NC. induction (sflats xs) as [|y l IHl]; [reflexivity|].
    cbn [map existsb] in NC. apply Bool.orb_false_iff in NC as [N1 N2]. cbn [app suntil]. rewrite N1, (IHl N2). reflexivity.
  - rewrite (snext_visible _ _ E) in N. injection N as <- <-. rewrite (sflats_visible t r E). cbn [suntil]. rewrite sflat1_erase, blind_comma.
    destruct (is_comma (erase t)); [reflexivity|]. rewrite (sflats_visible _ _ E), IH. reflexivity.
Qed.
Lemma sadvance_app a b : sadvance (entries_of a) (a ++ b) = b.
Proof.
  induction a as [|xs s r IH|x r E IH] using sentries_ind; [apply sadvance_0| |].
  - rewrite entries_invisible. cbn [app sadvance]. rewrite app_assoc. exact IH.
  - rewrite (entries_visible _ _ E). cbn [app]. rewrite (sadvance_visible _ _ _ E). exact IH.
Qed.
Lemma smatches_prefix a b : smatches (a ++ b) (entries_of a) (List.length (sflats a)).
Proof.
  split.
  - rewrite sadvance_app, sflats_app, skipn_app, skipn_all, Nat.sub_diag. reflexivity.
  - rewrite map_app. replace (List.length (sflats a)) with (List.length (flats (map erase a))); [apply matches_prefix|].
    rewrite <- sflats_erase. apply map_length.
Qed.

(** ** Sizes *)
Definition ssizes (ts : list stt) : nat := sizes (map erase ts).
Lemma ssizes_advance k ts : ssizes (sadvance k ts) <= ssizes ts.
Proof. unfold ssizes. rewrite sadvance_erase. apply sizes_advance. Qed.
Lemma ssizes_next ts i d xs s : snext ts = (i, Some (SGroup d xs s)) -> ssizes xs < ssizes ts.
Proof. intros N. apply snext_plain in N. apply sizes_next in N. cbn [erase] in N. rewrite tsize_group in N. unfold ssizes. lia. Qed.

Definition sagree {A B} (f : list stt -> option (A * nat * option syn_message)) (what : A -> B) (ts : list stt) : Prop :=
  match f ts, f (sflats ts) with
  | Some (a, k, u), Some (a', k', u') => what a = what a' /\ u = u' /\ left_unread_text u /\ smatches ts k k'
  | None, None => True
  | _, _ => False
  end.
Lemma sagree_through {A B} (f : list stt -> option (A * nat * option syn_message)) (what : A -> B) ts : sreads_through f what ts -> sagree f what ts.
Proof.
  unfold sreads_through, sagree. destruct (f ts) as [[[a k] u]|], (f (sflats ts)) as [[[a' k'] u']|]; try tauto.
  intros (A1 & A2 & A3 & _ & ->). split; [exact A1|]. split; [exact A2|]. split; [exact A3|apply smatches_taken].
Qed.

Section Same.
Context (P : parsers) (SP : sparsers) (hf : str -> bool) (D : list stt -> Prop).
Hypothesis D_fine : forall ts, D ts -> sfine ts.
Hypothesis D_next : forall t r, D (t :: r) -> D r.
Hypothesis D_enter : forall xs s r, D (SGroup NoDelim xs s :: r) -> D (xs ++ r).
Hypothesis D_group : forall d xs s r, D (SGroup d xs s :: r) -> D xs.
Hypothesis D_front : forall a b, D (a ++ b) -> D a.
Hypothesis S_int : forall ts, D ts -> sagree (as_node (spre_lit_int SP)) (fun x => x) ts.
Hypothesis S_str : forall ts, D ts -> sagree (as_node (spre_lit_str SP)) (fun x => x) ts.
Hypothesis S_path : forall ts, D ts -> sagree (spre_path SP) sflats ts.
Hypothesis S_type : forall ts, D ts -> sagree (spre_type SP) sflats ts.
Hypothesis S_expr : forall ts, D ts -> sagree (spre_expr SP) sflats ts.
Hypothesis S_block : forall ts, D ts -> sagree (spre_block SP) (fun b => sflats (pblock_tokens b)) ts.

Local Notation E ts := (flat_map (through_ann P SP hf) ts).
Local Notation E' ts := (map (sann P SP hf) (sflats ts)).
Local Notation MS := (Forall2 (same_message D)).

Lemma D_advance k ts : D ts -> D (sadvance k ts).
Proof.
  revert ts. induction k as [|k IH]; intros ts H; [rewrite sadvance_0; exact H|]. destruct ts as [|t r]; [exact H|].
  destruct (sinvisible t) eqn:I.
  - destruct t as [| | |[] xs s]; try discriminate. cbn [sadvance]. exact (IH _ (D_enter _ _ _ H)).
  - rewrite (sadvance_visible _ _ _ I). apply IH, (D_next t), H.
Qed.
Lemma D_in_next ts i t d xs s : D ts -> snext ts = (i, Some t) -> t = SGroup d xs s -> D xs.
Proof.
  revert i. induction ts as [|ys z r IH|x r I IH] using sentries_ind; intros i H N Et; [discriminate| |].
  - rewrite snext_invisible in N. destruct (snext (ys ++ r)) as [j o] eqn:N'. injection N as <- ->.
    apply (IH j); [exact (D_enter _ _ _ H)|reflexivity|exact Et].
  - rewrite (snext_visible _ _ I) in N. injection N as <- ->. subst t. exact (D_group _ _ _ _ H).
Qed.
Lemma D_until term ts : D ts -> D (through_until term ts).
Proof. intros H. destruct (suntil_prefix term ts) as [rest Er]. rewrite Er in H. exact (D_front _ _ H). Qed.
Lemma D_flat_nil ts : D ts -> ts <> [] -> sflats ts <> [].
Proof. intros H NE Z. apply NE. exact (sfine_nil _ (D_fine _ H) Z). Qed.

(** ** Entries *)
Definition stok1 (t : stt) : satok :=
  match t with
  | SGroup Paren ts s =>
      {| s_tok := t; s_args := through_args P SP hf (ds_close s) (E ts) ts; s_tuple := through_tuple P SP hf (ds_close s) (E ts) ts;
         s_pattern := through_pattern P (ds_close s) (E ts) ts |}
  | _ => {| s_tok := t; s_args := fun n => (n, []); s_tuple := fun n => (n, inr []); s_pattern := inr [] |}
  end.
Lemma stok1_tok t : s_tok (stok1 t) = t.
Proof. destruct t as [| | |[] ? ?]; reflexivity. Qed.
Lemma E_app a b : E (a ++ b) = E a ++ E b.
Proof. apply flat_map_app. Qed.
Lemma E_invisible xs s r : E (SGroup NoDelim xs s :: r) = SOpen (SGroup NoDelim xs s) :: E (xs ++ r).
Proof. rewrite E_app. reflexivity. Qed.
Lemma E_visible t r : sinvisible t = false -> E (t :: r) = STok (stok1 t) :: E r.
Proof. destruct t as [| | |[] ? ?]; try reflexivity. discriminate. Qed.
Lemma E_length ts : List.length (E ts) = entries_of ts.
Proof.
  induction ts as [|xs s r IH|x r I IH] using sentries_ind; [reflexivity| |].
  - rewrite E_invisible, entries_invisible. cbn [List.length]. rewrite IH. reflexivity.
  - rewrite (E_visible _ _ I), (entries_visible _ _ I). cbn [List.length]. rewrite IH. reflexivity.
Qed.
Lemma E_nil ts : E ts = [] -> ts = [].
Proof. intros H. apply sentries_nil. rewrite <- E_length, H. reflexivity. Qed.
Lemma E_advance1 ts e r : E ts = e :: r -> r = E (sadvance 1 ts).
Proof.
  destruct ts as [|t ts]; [discriminate|]. destruct (sinvisible t) eqn:I.
  - destruct t as [| | |[] xs s]; try discriminate. rewrite E_invisible. intros H. injection H as <- <-. cbn [sadvance]. rewrite ?sadvance_0. reflexivity.
  - rewrite (E_visible _ _ I), (sadvance_visible _ _ _ I), sadvance_0. intros H. injection H as <- <-. reflexivity.
Qed.
Lemma E_skipn k ts : skipn k (E ts) = E (sadvance k ts).
Proof.
  revert ts. induction k as [|k IH]; intros ts; [rewrite sadvance_0; reflexivity|].
  destruct (E ts) as [|e r] eqn:Ee; [rewrite (E_nil _ Ee); reflexivity|]. cbn [skipn]. rewrite (E_advance1 _ _ _ Ee), IH, <- sadvance_plus. reflexivity.
Qed.
Lemma E_firstn a b : firstn (entries_of a) (E (a ++ b)) = E a.
Proof. rewrite E_app, <- E_length, firstn_app, firstn_all, Nat.sub_diag. cbn. apply app_nil_r. Qed.
Lemma sseen_some ts i t : snext ts = (i, Some t) -> sseen (E ts) = STok (stok1 t) :: E (sadvance (S i) ts).
Proof.
  revert i. induction ts as [|xs s r IH|x r I IH] using sentries_ind; intros i H; [discriminate| |].
  - rewrite snext_invisible in H. destruct (snext (xs ++ r)) as [j o] eqn:N. injection H as <- ->.
    rewrite E_invisible. cbn [sseen]. rewrite (IH j eq_refl). reflexivity.
  - rewrite (snext_visible _ _ I) in H. injection H as <- ->. rewrite (E_visible _ _ I), (sadvance_visible _ _ _ I), sadvance_0. reflexivity.
Qed.
Lemma E_minus ts i t : snext ts = (i, Some t) -> List.length (E ts) - List.length (E (sadvance (S i) ts)) = S i.
Proof. intros N. destruct (snext_some _ _ _ N) as (_ & _ & L). rewrite !E_length, sadvance_entries. lia. Qed.
Lemma E_minus2 ts i t j t' : snext ts = (i, Some t) -> snext (sadvance (S i) ts) = (j, Some t') ->
  List.length (E ts) - List.length (E (sadvance (S j) (sadvance (S i) ts))) = S i + S j.
Proof.
  intros N N'. destruct (snext_some _ _ _ N) as (_ & _ & L). destruct (snext_some _ _ _ N') as (_ & _ & L').
  rewrite !E_length, !sadvance_entries in *. lia.
Qed.
Lemma E'_some ts i t : snext ts = (i, Some t) -> E' ts = sann P SP hf (sflat1 t) :: E' (sadvance (S i) ts).
Proof. intros N. destruct (snext_some _ _ _ N) as (_ & -> & _). reflexivity. Qed.
Lemma stoks_sann l : stoks (map (sann P SP hf) l) = l.
Proof. unfold stoks. rewrite map_map. rewrite <- (map_id l) at 2. apply map_ext. intros [| | |[] ? ?]; reflexivity. Qed.
Lemma stok_sann t : s_tok (sann P SP hf t) = t.
Proof. destruct t as [| | |[] ? ?]; reflexivity. Qed.

(** ** Places *)
Lemma place_E scope ts : place scope (etoks (E ts)) = place scope ts.
Proof.
  destruct ts as [|t r]; [reflexivity|]. destruct (sinvisible t) eqn:I.
  - destruct t as [| | |[] xs s]; try discriminate. reflexivity.
  - rewrite (E_visible _ _ I). cbn [etoks map entry_tok]. rewrite stok1_tok. reflexivity.
Qed.
Lemma error_E scope ts x : error_at scope (etoks (E ts)) x = error_at scope ts x.
Proof.
  unfold error_at. rewrite place_E. destruct ts as [|t r]; [reflexivity|]. destruct (etoks (E (t :: r))) as [|e l] eqn:Z; [|reflexivity].
  apply map_eq_nil in Z. apply E_nil in Z. discriminate.
Qed.
Lemma expected_E x scope ts : D ts -> through_expected x scope (E ts) = new_message (instead scope ts) (txt "expected `" ++ txt x ++ txt "`").
Proof.
  intros H. unfold through_expected, instead. f_equal. rewrite place_E. destruct (snext ts) as [i [t|]] eqn:N.
  - rewrite (sseen_some _ _ _ N). destruct (snext_some _ _ _ N) as (_ & -> & _). destruct t as [| | |[] ? ?]; reflexivity.
  - rewrite (sfine_none _ _ (D_fine _ H) N). reflexivity.
Qed.
Lemma character_E x scope ts : D ts -> character x -> same_message D (through_expected x scope (E ts)) (expected_punct x scope (sflats ts)).
Proof. intros H Hx. rewrite (expected_E _ _ _ H). apply same_character; assumption. Qed.
Lemma ident_E scope ts : D ts -> same_message D (through_expected_ident scope (E ts)) (expected_ident scope (sflats ts)).
Proof.
  intros H. destruct (snext ts) as [i [t|]] eqn:N.
  - set (x := match t with SIdent x _ => txt "expected identifier, found keyword `" ++ x ++ txt "`" | _ => txt "expected identifier" end).
    assert (A : through_expected_ident scope (E ts) = error_at scope ts x).
    { unfold through_expected_ident. rewrite (sseen_some _ _ _ N), <- (error_E scope ts). destruct t as [| | |[] ? ?]; reflexivity. }
    assert (B : expected_ident scope (sflats ts) = error_at scope (sflats ts) x).
    { unfold expected_ident. destruct (snext_some _ _ _ N) as (_ & -> & _). destruct t; reflexivity. }
    rewrite A, B. apply same_standing; [exact H|]. unfold x. destruct t; constructor.
  - pose proof (sfine_none _ _ (D_fine _ H) N) as Z. subst ts. exact (same_standing D scope [] _ H no_identifier).
Qed.
Lemma begin_E ts : D ts -> ts <> [] -> begin D (place call_site (etoks (E ts))) (place call_site (sflats ts)).
Proof. intros H NE. exists ts. rewrite place_E. auto. Qed.

(** ** Values *)
Definition scand (ts : list stt) (o o' : option scandidate) : Prop :=
  match o, o' with
  | Some (v, k, u), Some (v', k', u') => sflat_value v = sflat_value v' /\ u = u' /\ left_unread_text u /\ smatches ts k k'
  | None, None => True
  | _, _ => False
  end.
Lemma unread_none : left_unread_text None.
Proof. intros m H. discriminate. Qed.
Lemma unread_first u u' : left_unread_text u -> left_unread_text u' -> left_unread_text (first_some u u').
Proof. destruct u; auto. Qed.
Lemma scand_node f (Hf : forall x y, sflats x = sflats y -> sflat_value (f x) = sflat_value (f y)) g ts : sagree g sflats ts ->
  scand ts (snode_candidate f (g ts)) (snode_candidate f (g (sflats ts))).
Proof.
  unfold sagree, scand, snode_candidate. destruct (g ts) as [[[a k] u]|], (g (sflats ts)) as [[[a' k'] u']|]; cbn; try tauto.
  intros (A & B & C & M). repeat split; auto; apply M.
Qed.
Lemma scands ts : D ts -> Forall2 (scand ts) (through_attempts P SP ts) (sattempts P SP (sflats ts)).
Proof.
  intros H. unfold through_attempts, sattempts. repeat apply Forall2_cons; [| | | | | | |apply Forall2_nil].
  - generalize (S_int _ H). unfold sagree, scand, as_node, slit_int_candidate.
    destruct (spre_lit_int SP ts) as [[[[a b] s] k]|], (spre_lit_int SP (sflats ts)) as [[[[a' b'] s'] k']|]; cbn; try tauto.
    intros (A & B & C & M). injection A as -> -> ->. repeat split; try apply M. exact unread_none.
  - generalize (S_str _ H). unfold sagree, scand, as_node, slit_str_candidate.
    destruct (spre_lit_str SP ts) as [[[[a b] s] k]|], (spre_lit_str SP (sflats ts)) as [[[[a' b'] s'] k']|]; cbn; try tauto.
    intros (A & B & C & M). injection A as -> -> ->. repeat split; try apply M. exact unread_none.
  - unfold through_underscore, sunderscore_candidate. destruct (snext ts) as [i [t|]] eqn:N.
    + pose proof (snext_matches _ _ _ N) as M. destruct (snext_some _ _ _ N) as (_ & -> & _). rewrite sflat1_erase, sflat1_span, blind_word, blind_punct.
      destruct (is_word [95%N] (erase t) || is_punct 95%N (erase t)); [|exact I]. cbn. repeat split; try apply M. exact unread_none.
    + rewrite (snext_none _ _ N). exact I.
  - unfold through_ident, sident_candidate. destruct (snext ts) as [i [t|]] eqn:N.
    + pose proof (snext_matches _ _ _ N) as M. destruct (snext_some _ _ _ N) as (_ & -> & _).
      destruct t as [x s|c j s|l s|d xs s]; cbn [sflat1]; try exact I. destruct (ident_allowed P x); [|exact I]. cbn. repeat split; try apply M. exact unread_none.
    + rewrite (snext_none _ _ N). exact I.
  - apply scand_node; [intros x y e; cbn; rewrite e; reflexivity|apply S_path, H].
  - apply scand_node; [intros x y e; cbn; rewrite e; reflexivity|apply S_type, H].
  - apply scand_node; [intros x y e; cbn; rewrite e; reflexivity|apply S_expr, H].
Qed.
Lemma scand_try ts o o' : D ts -> scand ts o o' -> scand ts (through_try_parse is_comma ts o) (stry_parse is_comma (sflats ts) o').
Proof.
  intros H. unfold scand, through_try_parse, stry_parse. destruct o as [[[v k] u]|], o' as [[[v' k'] u']|]; try tauto.
  intros (A & B & C & M). rewrite (sends_flat _ _ blind_comma (D_fine _ (D_advance k _ H))), (proj1 M).
  destruct (ends is_comma (map erase (skipn k' (sflats ts)))); [|exact I]. auto.
Qed.
Definition sbest (ts : list stt) (x y : N * option (nat * (sexpr * nat * option syn_message))) : Prop :=
  fst x = fst y /\
  match snd x, snd y with
  | Some (m, (e, k, u)), Some (m', (e', k', u')) => m = m' /\ same_sexpr D e e' /\ u = u' /\ left_unread_text u /\ smatches ts k k'
  | None, None => True
  | _, _ => False
  end.
Lemma sbest_attempt ts x y o o' : D ts -> sbest ts x y -> scand ts o o' ->
  sbest ts (through_attempt is_comma ts x o) (sattempt is_comma (sflats ts) y o').
Proof.
  intros H Hb Hc. apply (scand_try _ _ _ H) in Hc. unfold through_attempt, sattempt. destruct x as [n b], y as [n' b'].
  destruct Hb as [Hn Hb]. cbn [fst snd] in *. subst n'.
  destruct (through_try_parse is_comma ts o) as [[[v k] u]|], (stry_parse is_comma (sflats ts) o') as [[[v' k'] u']|]; cbn [scand] in Hc; try contradiction.
  - destruct Hc as (A & B & C & M). rewrite (distance_flat _ _ _ (proj2 M)), <- sflats_erase.
    assert (S0 : same_sexpr D (SEValue n v) (SEValue n v')) by (constructor; exact A).
    destruct b as [[m [[e j] w]]|], b' as [[m' [[e' j'] w']]|]; try contradiction.
    + destruct Hb as (-> & Hb). destruct (Nat.ltb m' (distance_to k' (map erase (sflats ts)))); split; try reflexivity; cbn [snd]; auto.
    + split; [reflexivity|]. cbn [snd]. auto.
  - split; [reflexivity|exact Hb].
Qed.
Lemma sbest_fold ts l l' : D ts -> Forall2 (scand ts) l l' -> forall x y, sbest ts x y ->
  sbest ts (fold_left (through_attempt is_comma ts) l x) (fold_left (sattempt is_comma (sflats ts)) l' y).
Proof.
  intros H HF. induction HF as [|o o' l l' Ho HF IH]; intros x y Hb; [exact Hb|]. cbn [fold_left]. apply IH, sbest_attempt; assumption.
Qed.
Definition read_same (ts : list stt) (x y : N * (sexpr * nat * option syn_message)) : Prop :=
  fst x = fst y /\ match snd x, snd y with (e, k, u), (e', k', u') => same_sexpr D e e' /\ u = u' /\ left_unread_text u /\ smatches ts k k' end.
Lemma value_same n ts : D ts -> read_same ts (through_value P SP is_comma n ts) (sparse_value P SP is_comma n (sflats ts)).
Proof.
  intros H. unfold through_value, sparse_value.
  pose proof (sbest_fold ts _ _ H (scands ts H) (n, None) (n, None) (conj eq_refl I)) as B.
  destruct (fold_left _ (through_attempts P SP ts) _) as [n1 [[m [[e k] u]]|]], (fold_left _ (sattempts P SP (sflats ts)) _) as [n1' [[m' [[e' k'] u']]|]];
    destruct B as [Bn Bb]; cbn [fst snd] in *; try contradiction; subst n1'.
  - destruct Bb as (_ & Bb). split; [reflexivity|exact Bb].
  - split; [reflexivity|]. cbn [snd]. destruct (suntil_prefix is_comma ts) as [rest Er].
    rewrite <- (suntil_flat ts (D_fine _ H)). split; [|split; [reflexivity|split; [exact unread_none|]]].
    + constructor. cbn [sflat_value]. rewrite sflats_idem. reflexivity.
    + rewrite Er at 1. apply smatches_prefix.
Qed.

(** ** Expressions, arguments, tuples *)
Definition either {A B} (R : A -> B -> Prop) (x : A + messages) (y : B + messages) : Prop :=
  match x, y with inl a, inl b => R a b | inr e, inr e' => MS e e' | _, _ => False end.
Definition with_unread {A B} (R : A -> B -> Prop) (x : A * option syn_message) (y : B * option syn_message) : Prop :=
  R (fst x) (fst y) /\ snd x = snd y /\ left_unread_text (snd x).
Definition same (xs : list stt) : Prop :=
  (forall c n, fst (through_args P SP hf c (E xs) xs n) = fst (sparse_args P SP hf c (E' xs) n) /\
               Forall2 (same_sexpr D) (snd (through_args P SP hf c (E xs) xs n)) (snd (sparse_args P SP hf c (E' xs) n))) /\
  (forall c n, fst (through_tuple P SP hf c (E xs) xs n) = fst (sparse_tuple P SP hf c (E' xs) n) /\
               either (with_unread (Forall2 (same_element D))) (snd (through_tuple P SP hf c (E xs) xs n)) (snd (sparse_tuple P SP hf c (E' xs) n))) /\
  (forall c, either eq (through_pattern P c (E xs) xs) (sparse_pattern P c (E' xs))).

Section Level.
Context (m : nat).
Hypothesis IH : forall xs, ssizes xs < m -> D xs -> same xs.
Definition ok (ts : list stt) : Prop := D ts /\ ssizes ts <= m.
Lemma ok_advance k ts : ok ts -> ok (sadvance k ts).
Proof. intros [H1 H2]. split; [apply D_advance, H1|]. pose proof (ssizes_advance k ts). lia. Qed.
Lemma ok_until term ts : ok ts -> ok (through_until term ts).
Proof.
  intros [H1 H2]. split; [apply D_until, H1|]. destruct (suntil_prefix term ts) as [rest Er]. unfold ssizes in *. rewrite Er, map_app, sizes_app in H2. lia.
Qed.
Lemma ok_inside ts i d xs s : ok ts -> snext ts = (i, Some (SGroup d xs s)) -> same xs.
Proof.
  intros [H1 H2] N. apply IH; [|exact (D_in_next _ _ _ _ _ _ H1 N eq_refl)].
  pose proof (ssizes_next _ _ _ _ _ N). lia.
Qed.
Lemma some_not_nil ts i t : snext ts = (i, Some t) -> ts <> [].
Proof. intros N Z. subst ts. discriminate. Qed.

Definition call_read (ts : list stt) (x y : option (N * (sexpr * nat))) : Prop :=
  match x, y with
  | Some (n, (e, k)), Some (n', (e', k')) => n = n' /\ same_sexpr D e e' /\ smatches ts k k'
  | None, None => True
  | _, _ => False
  end.
Lemma call_same n ts : ok ts -> call_read ts (through_call P hf n (E ts)) (sparse_call P hf n (E' ts)).
Proof.
  intros H. unfold through_call. destruct (snext ts) as [i [t|]] eqn:N.
  2: { rewrite (sfine_none _ _ (D_fine _ (proj1 H)) N). exact I. }
  rewrite (sseen_some _ _ _ N). pose proof (begin_E _ (proj1 H) (some_not_nil _ _ _ N)) as Hb. destruct (snext_some _ _ _ N) as (_ & Ef & _). rewrite Ef in Hb.
  rewrite (E'_some _ _ _ N). destruct t as [x s|c j s|l s|d xs s]; cbn [sflat1 stok1 sann]; [|exact I|exact I|destruct d; exact I].
  pose proof (ok_advance (S i) _ H) as H1. pose proof (snext_matches _ _ _ N) as M.
  destruct (snext (sadvance (S i) ts)) as [j [t|]] eqn:N1.
  2: { rewrite (sfine_none _ _ (D_fine _ (proj1 H1)) N1). exact I. }
  rewrite (sseen_some _ _ _ N1), (E'_some _ _ _ N1), (E_minus2 _ _ _ _ _ N N1). unfold sparse_call.
  destruct t as [y z|c z w|l z|d xs z]; cbn [sflat1 stok1 sann]; [exact I|exact I|exact I|]. destruct d; try exact I.
  destruct (ident_allowed P x && hf x); [|exact I]. cbn [s_args].
  destruct (ok_inside _ _ _ _ _ H1 N1) as (HA & _). specialize (HA (ds_close z) n).
  fold (sflats xs).
  destruct (through_args P SP hf (ds_close z) (E xs) xs n) as [n1 args], (sparse_args P SP hf (ds_close z) (E' xs) n) as [n1' args'].
  cbn [fst snd] in HA. destruct HA as [<- HA]. split; [reflexivity|]. split.
  - apply same_scall; [exact Hb|exact HA].
  - change 2 with (1 + 1). apply smatches_plus; [exact M|]. exact (snext_matches _ _ _ N1).
Qed.
Lemma expr_same n ts : ok ts -> read_same ts (through_expr P SP hf n (E ts) ts) (sparse_expr_ P SP hf n (E' ts)).
Proof.
  intros H. unfold through_expr, sparse_expr_. pose proof (call_same n ts H) as Hc.
  destruct (through_call P hf n (E ts)) as [[n1 [e k]]|], (sparse_call P hf n (E' ts)) as [[n1' [e' k']]|]; try contradiction.
  - destruct Hc as (-> & A & M). split; [reflexivity|]. cbn [snd]. split; [exact A|split; [reflexivity|split; [exact unread_none|exact M]]].
  - rewrite stoks_sann. apply value_same, H.
Qed.

(** Lists of items. *)
Definition corr {A B} (R : A -> B -> Prop) (ts : list stt) (x : N * (A * nat + messages)) (y : N * (B * nat + messages)) : Prop :=
  fst x = fst y /\ either (fun a b => R (fst a) (fst b) /\ smatches ts (snd a) (snd b)) (snd x) (snd y).
Section Items.
Context {A : Type} (R : A -> A -> Prop) (scope : span) (item : N -> list sentry -> list stt -> N * (A * nat + messages)) (item' : N -> list satok -> N * (A * nat + messages)).
Hypothesis Hitem : forall n ts, ok ts -> ts <> [] -> corr R ts (item n (E ts) ts) (item' n (E' ts)).
Definition list_same (x y : N * (list A + messages)) : Prop := fst x = fst y /\ either (Forall2 R) (snd x) (snd y).

Lemma terminated_item ts n : ts <> [] ->
  through_terminated scope item (E ts) ts SItem n =
  match item n (E ts) ts with
  | (n1, inr e) => (n1, inr e)
  | (n1, inl (a, k)) =>
      let (n2, rest) := through_terminated scope item (E ts) ts (SSkip k) n1 in (n2, match rest with inl l' => inl (a :: l') | inr e => inr e end)
  end.
Proof.
  intros NE. destruct (E ts) as [|e r] eqn:Ee; [destruct (NE (E_nil _ Ee))|]. cbn [through_terminated].
  destruct (item n (e :: r) ts) as [n1 [[a [|k]]|]]; reflexivity.
Qed.
Lemma terminated_item' l n : l <> [] ->
  sparse_terminated scope item' l None n =
  match item' n l with
  | (n1, inr e) => (n1, inr e)
  | (n1, inl (a, k)) =>
      let (n2, rest) := sparse_terminated scope item' l (Some k) n1 in (n2, match rest with inl l' => inl (a :: l') | inr e => inr e end)
  end.
Proof.
  intros NE. destruct l as [|e r]; [destruct (NE eq_refl)|]. cbn [sparse_terminated].
  destruct (item' n (e :: r)) as [n1 [[a [|k]]|]]; reflexivity.
Qed.
Lemma terminated_skip k : forall ts n, through_terminated scope item (E ts) ts (SSkip k) n = through_terminated scope item (E (sadvance k ts)) (sadvance k ts) (SSkip 0) n.
Proof.
  induction k as [|k IHk]; intros ts n; [rewrite sadvance_0; reflexivity|].
  destruct (E ts) as [|e r] eqn:Ee; [rewrite (E_nil _ Ee); reflexivity|]. cbn [through_terminated].
  rewrite (E_advance1 _ _ _ Ee), IHk. rewrite <- sadvance_plus. reflexivity.
Qed.
Lemma terminated_skip' k : forall l n, sparse_terminated scope item' l (Some k) n = sparse_terminated scope item' (skipn k l) (Some 0) n.
Proof. induction k as [|k IHk]; intros l n; [reflexivity|]. destruct l as [|e r]; [reflexivity|]. cbn [sparse_terminated skipn]. apply IHk. Qed.
Lemma terminated_sep ts i t n p msg : p = SSkip 0 /\ msg = through_expected "," scope (E ts) \/ p = SSep msg -> snext ts = (i, Some t) ->
  through_terminated scope item (E ts) ts p n =
  if is_comma (erase t) then through_terminated scope item (E (sadvance (S i) ts)) (sadvance (S i) ts) SItem n else (n, inr [msg]).
Proof.
  revert i p. induction ts as [|xs s r IHt|x r I IHt] using sentries_ind; intros i p Hp N; [discriminate| |].
  - rewrite snext_invisible in N. destruct (snext (xs ++ r)) as [j o] eqn:N'. injection N as <- ->.
    specialize (IHt j (SSep msg) (or_intror eq_refl) eq_refl). rewrite E_invisible in *.
    destruct Hp as [[-> ->]| ->]; cbn [through_terminated sadvance]; rewrite ?sadvance_0; exact IHt.
  - rewrite (snext_visible _ _ I) in N. injection N as <- ->. rewrite (E_visible _ _ I) in *. rewrite (sadvance_visible 0 _ _ I), sadvance_0.
    destruct Hp as [[-> ->]| ->]; cbn [through_terminated]; rewrite (sadvance_visible 0 _ _ I), sadvance_0, stok1_tok; reflexivity.
Qed.
Lemma terminated_same ts n : ok ts ->
  list_same (through_terminated scope item (E ts) ts SItem n) (sparse_terminated scope item' (E' ts) None n).
Proof.
  remember (entries_of ts) as k eqn:Ek. assert (Hk : entries_of ts <= k) by lia. clear Ek. revert ts n Hk.
  induction k as [|k IHk]; intros ts n Hk H.
  - assert (ts = []) as -> by (apply sentries_nil; lia). split; [reflexivity|constructor].
  - destruct ts as [|t r]; [split; [reflexivity|constructor]|]. set (ts := t :: r) in *. assert (NE : ts <> []) by discriminate.
    assert (NE' : E' ts <> []).
    { pose proof (D_flat_nil _ (proj1 H) NE) as Hf. destruct (sflats ts); [contradiction|discriminate]. }
    rewrite (terminated_item _ _ NE), (terminated_item' _ _ NE'). specialize (Hitem n ts H NE).
    destruct (item n (E ts) ts) as [n1 [[a j]|er]], (item' n (E' ts)) as [n1' [[a' j']|er']]; destruct Hitem as [Hn Hr]; cbn [fst snd either] in *; subst n1'; try contradiction.
    2: { split; [reflexivity|exact Hr]. }
    destruct Hr as [Ha M]. rewrite terminated_skip, terminated_skip', skipn_map, <- (proj1 M).
    pose proof (ok_advance j _ H) as H1. pose proof (sadvance_entries j ts) as L1.
    destruct (sadvance j ts) as [|t1 r1].
    + split; [reflexivity|]. cbn. constructor; [exact Ha|constructor].
    + set (ts1 := t1 :: r1) in *. destruct (sfine_next _ _ (D_fine _ (proj1 H1))) as (i & x & N). fold ts1 in N.
      rewrite (terminated_sep _ _ _ _ _ _ (or_introl (conj eq_refl eq_refl)) N).
      pose proof (character_E "," scope _ (proj1 H1) comma_character) as Hm. destruct (snext_some _ _ _ N) as (_ & Ef & _).
      rewrite Ef in Hm. rewrite (E'_some _ _ _ N). cbn [sparse_terminated]. rewrite stok_sann, sflat1_erase, blind_comma.
      destruct (is_comma (erase x)).
      2: { split; [reflexivity|]. cbn [fst snd either]. constructor; [|constructor]. unfold stoks. cbn [map]. rewrite stok_sann. fold (stoks (E' (sadvance (S i) ts1))). rewrite stoks_sann. exact Hm. }
      assert (L2 : entries_of (sadvance (S i) ts1) <= k) by (rewrite sadvance_entries; destruct (snext_some _ _ _ N) as (_ & _ & L); lia).
      destruct (IHk _ n1 L2 (ok_advance (S i) _ H1)) as [G1 G2].
      destruct (through_terminated scope item _ _ SItem n1) as [n2 o], (sparse_terminated scope item' _ None n1) as [n2' o']. cbn [fst snd] in *. subst n2'.
      split; [reflexivity|]. cbn [fst snd]. destruct o as [l|], o' as [l'|]; cbn [either] in *; try contradiction; [|exact G2].
      constructor; assumption.
Qed.
End Items.

Lemma left_over_flat ts : D ts -> left_over ts = option_map unexpected_token (hd_error (sflats ts)).
Proof.
  intros H. unfold left_over. destruct (snext ts) as [i [t|]] eqn:N.
  - destruct (snext_some _ _ _ N) as (_ & -> & _). cbn. unfold unexpected_token. rewrite sflat1_span. reflexivity.
  - rewrite (snext_none _ _ N). reflexivity.
Qed.
Lemma same_unread u e : left_unread_text u -> u = Some e -> same_message D e e.
Proof. intros H ->. rewrite (H e eq_refl). apply same_left. Qed.
Lemma same_unexpected t : same_message D (unexpected_token t) (unexpected_token t).
Proof. apply same_left. Qed.
Lemma sauntil_E ts : D ts -> sauntil is_comma (E' ts) = E' (through_until is_comma ts).
Proof.
  intros H. rewrite (suntil_flat _ (D_fine _ H)). induction (sflats ts) as [|y l IHl]; [reflexivity|]. cbn [map sauntil suntil]. rewrite stok_sann.
  destruct (is_comma (erase y)); [reflexivity|]. rewrite IHl. reflexivity.
Qed.
Lemma arg_same n ts : ok ts -> ts <> [] -> corr (same_sexpr D) ts (through_arg P SP hf n (E ts) ts) (sparse_arg P SP hf n (E' ts)).
Proof.
  intros H NE. unfold through_arg, sparse_arg. rewrite (sauntil_E _ (proj1 H)). destruct (suntil_prefix is_comma ts) as [rest Er].
  replace (firstn (entries_of (through_until is_comma ts)) (E ts)) with (E (through_until is_comma ts)) by (rewrite Er at 3; symmetry; apply E_firstn).
  pose proof (ok_until is_comma _ H) as Hu. pose proof (expr_same n _ Hu) as He.
  destruct (through_expr P SP hf n (E (through_until is_comma ts)) (through_until is_comma ts)) as [n1 [[e k] u]],
           (sparse_expr_ P SP hf n (E' (through_until is_comma ts))) as [n1' [[e' k'] u']].
  destruct He as [Hn (A & Hu' & Ht & M)]. cbn [fst snd] in Hn, Hu'. subst n1' u'. split; [reflexivity|]. cbn [snd].
  rewrite (left_over_flat _ (D_advance k _ (proj1 Hu))), (proj1 M), stoks_sann.
  destruct u as [msg|]; cbn [first_some].
  - constructor; [|constructor]. exact (same_unread _ _ Ht eq_refl).
  - destruct (skipn k' (sflats (through_until is_comma ts))) as [|t r]; cbn [hd_error option_map].
    + split; [exact A|]. cbn [fst snd]. rewrite map_length. rewrite Er at 1. apply smatches_prefix.
    + constructor; [|constructor]. apply same_unexpected.
Qed.
Lemma tuple_value_same n ts : ok ts -> ts <> [] ->
  corr (with_unread (same_element D)) ts (through_tuple_value P SP hf n (E ts) ts) (sparse_tuple_value P SP hf n (E' ts)).
Proof.
  intros H NE.
  assert (HE : corr (with_unread (same_element D)) ts
                 (match through_expr P SP hf n (E ts) ts with (n', (e, k, u)) => (n', inl (TVValue e, u, k)) end)
                 (match sparse_expr_ P SP hf n (E' ts) with (n', (e, k, u)) => (n', inl (TVValue e, u, k)) end)).
  { pose proof (expr_same n ts H) as He. destruct (through_expr P SP hf n (E ts) ts) as [n1 [[e k] u]], (sparse_expr_ P SP hf n (E' ts)) as [n1' [[e' k'] u']].
    destruct He as [Hn (A & Hu & Ht & M)]. cbn [fst snd] in Hn, Hu. subst n1' u'. split; [reflexivity|]. cbn [snd either fst]. split; [|exact M]. split; [constructor; exact A|split; [reflexivity|exact Ht]]. }
  unfold through_tuple_value, sparse_tuple_value. destruct (snext ts) as [i [t|]] eqn:N; [|destruct (NE (sfine_none _ _ (D_fine _ (proj1 H)) N))].
  rewrite (sseen_some _ _ _ N). rewrite (E'_some _ _ _ N) in *.
  destruct t as [x s|c j s|l s|d xs s]; cbn [sflat1 stok1 sann] in *; try exact HE. destruct d; try exact HE.
  cbn [s_tuple]. rewrite (E_minus _ _ _ N). destruct (ok_inside _ _ _ _ _ H N) as (_ & HT & _). specialize (HT (ds_close s) n). fold (sflats xs).
  destruct (through_tuple P SP hf (ds_close s) (E xs) xs n) as [n1 o], (sparse_tuple P SP hf (ds_close s) (E' xs) n) as [n1' o'].
  cbn [fst snd] in HT. destruct HT as [<- HT]. destruct o as [[t u]|], o' as [[t' u']|]; cbn [either] in HT; try contradiction; (split; [reflexivity|]); cbn [snd either].
  - destruct HT as (Ht & Hu & Hl). cbn [fst snd] in *. split; [|exact (snext_matches _ _ _ N)]. split; [constructor; exact Ht|split; assumption].
  - exact HT.
Qed.
Lemma pattern_value_same scope n ts : ok ts -> ts <> [] ->
  corr eq ts (through_pattern_value P scope n (E ts) ts) (sparse_pattern_value P scope n (E' ts)).
Proof.
  intros H NE. unfold through_pattern_value, sparse_pattern_value. rewrite stoks_sann. pose proof (ident_E scope _ (proj1 H)) as Hm.
  destruct (snext ts) as [i [t|]] eqn:N; [|destruct (NE (sfine_none _ _ (D_fine _ (proj1 H)) N))].
  rewrite (sseen_some _ _ _ N), (E_minus _ _ _ N). pose proof (snext_matches _ _ _ N) as M. rewrite (E'_some _ _ _ N).
  assert (HE : MS [through_expected_ident scope (E ts)] [expected_ident scope (sflats ts)]) by (constructor; [exact Hm|constructor]).
  destruct t as [x s|c j s|l s|d xs s]; cbn [sflat1 stok1 sann]; try (split; [reflexivity|exact HE]).
  - split; [reflexivity|]. cbn [snd]. destruct (ident_allowed P x); [|exact HE]. split; [reflexivity|exact M].
  - destruct d; try (split; [reflexivity|exact HE]). split; [reflexivity|]. cbn [s_pattern snd].
    destruct (ok_inside _ _ _ _ _ H N) as (_ & _ & HP). specialize (HP (ds_close s)). fold (sflats xs).
    destruct (through_pattern P (ds_close s) (E xs) xs), (sparse_pattern P (ds_close s) (E' xs)); cbn [either] in *; try contradiction; [|exact HP].
    subst. split; [reflexivity|exact M].
Qed.
Lemma first_unexpected_same {A} (R : A -> A -> Prop) l l' : Forall2 (with_unread R) l l' -> with_unread (Forall2 R) (first_unexpected l) (first_unexpected l').
Proof.
  intros H. unfold first_unexpected, with_unread. cbn [fst snd]. induction H as [|x y l l' (H1 & H2 & H3) _ (I1 & I2 & I3)].
  - split; [constructor|split; [reflexivity|exact unread_none]].
  - cbn [map fold_right]. rewrite <- H2, <- I2. split; [constructor; assumption|]. split; [reflexivity|apply unread_first; assumption].
Qed.
Lemma Forall2_eq {A} (l l' : list A) : Forall2 eq l l' -> l = l'.
Proof. intros H. induction H as [|x y l l' -> _ IHl]; [reflexivity|]. rewrite IHl. reflexivity. Qed.
Lemma same_level ts : ok ts -> same ts.
Proof.
  intros H. split; [|split].
  - intros c n. unfold through_args, sparse_args. destruct (terminated_same (same_sexpr D) c _ _ arg_same ts n H) as [A B].
    destruct (through_terminated _ _ _ _ _ n) as [n1 [l|]], (sparse_terminated _ _ _ None n) as [n1' [l'|]]; cbn [fst snd either] in *; try contradiction; split; try exact A; try exact B. constructor.
  - intros c n. unfold through_tuple, sparse_tuple. destruct (terminated_same (with_unread (same_element D)) c _ _ tuple_value_same ts n H) as [A B].
    destruct (through_terminated _ _ _ _ _ n) as [n1 [l|]], (sparse_terminated _ _ _ None n) as [n1' [l'|]]; cbn [fst snd either] in *; try contradiction; split; try exact A; try exact B.
    apply first_unexpected_same, B.
  - intros c. unfold through_pattern, sparse_pattern. destruct (terminated_same eq c _ _ (pattern_value_same c) ts 0%N H) as [A B].
    destruct (through_terminated _ _ _ _ _ 0%N) as [n1 [l|]], (sparse_terminated _ _ _ None 0%N) as [n1' [l'|]]; cbn [fst snd either] in *; try contradiction; try exact B.
    apply Forall2_eq, B.
Qed.
End Level.

Lemma all_same ts : D ts -> same ts.
Proof.
  remember (ssizes ts) as m eqn:Em. assert (Hm : ssizes ts <= m) by lia. clear Em. revert ts Hm.
  induction m as [m IH] using lt_wf_ind. intros ts Hm H. apply (same_level m); [|split; assumption].
  intros xs L. apply (IH (ssizes xs) L). lia.
Qed.
Lemma top ts : D ts -> ok (ssizes ts) ts.
Proof. intros H. split; [exact H|lia]. Qed.
Lemma below ts : forall xs, ssizes xs < ssizes ts -> D xs -> same xs.
Proof. intros xs _. apply all_same. Qed.

(** ** Definitions *)
Lemma expr_here n ts : D ts -> read_same ts (through_expr P SP hf n (E ts) ts) (sparse_expr_ P SP hf n (E' ts)).
Proof. intros H. exact (expr_same (ssizes ts) (below ts) n ts (top ts H)). Qed.
Lemma separator_same ts : D ts -> ts <> [] -> MS (through_expected_separator (E ts)) (expected_separator (sflats ts)).
Proof.
  intros H NE. unfold through_expected_separator, expected_separator, combine_errors. cbn [List.concat app]. rewrite place_E.
  repeat constructor; [exact H|exact NE|apply character_E; [exact H|constructor]|apply character_E; [exact H|constructor]].
Qed.

Definition item_read (ts : list stt) (x y : N * (sitem * nat * option syn_message + messages)) : Prop :=
  fst x = fst y /\
  either (fun a b => same_definition D (fst (fst a)) (fst (fst b)) /\ snd a = snd b /\ left_unread_text (snd a) /\
                     smatches ts (snd (fst a)) (S (snd (fst b))) /\ 0 < snd (fst a)) (snd x) (snd y).
Lemma item_same n ts : D ts -> item_read ts (through_spec_item P SP hf n (E ts) ts) (sparse_spec_item P SP hf n (E' ts)).
Proof.
  intros H. unfold through_spec_item, sparse_spec_item. rewrite stoks_sann. pose proof (ident_E call_site _ H) as Hm.
  assert (HE : MS [through_expected_ident call_site (E ts)] [expected_ident call_site (sflats ts)]) by (constructor; [exact Hm|constructor]).
  destruct (snext ts) as [i [t|]] eqn:N.
  2: { pose proof (sfine_none _ _ (D_fine _ H) N). subst ts. split; [reflexivity|exact HE]. }
  rewrite (sseen_some _ _ _ N), (E'_some _ _ _ N). pose proof (snext_matches _ _ _ N) as M.
  destruct t as [x s|c j s|l s|d xs s]; cbn [sflat1 stok1 sann]; try (split; [reflexivity|exact HE]); [|destruct d; (split; [reflexivity|exact HE])].
  destruct (ident_allowed P x); [|split; [reflexivity|exact HE]].
  pose proof (D_advance (S i) _ H) as H1. pose proof (character_E "=" call_site _ H1 equals_character) as Hc.
  destruct (snext (sadvance (S i) ts)) as [j [t|]] eqn:N1.
  2: { pose proof (sfine_none _ _ (D_fine _ H1) N1) as Z. rewrite Z in *. split; [reflexivity|]. cbn. constructor; [exact Hc|constructor]. }
  rewrite (sseen_some _ _ _ N1), (E_minus2 _ _ _ _ _ N N1).
  assert (HC : MS [through_expected "=" call_site (E (sadvance (S i) ts))] [expected_punct "=" call_site (stoks (E' (sadvance (S i) ts)))])
    by (rewrite stoks_sann; constructor; [exact Hc|constructor]).
  rewrite (E'_some _ _ _ N1) in *. rewrite stok1_tok, stok_sann, sflat1_erase. unfold is_equals. rewrite (blind_punct 61%N (erase t)).
  destruct (is_punct 61%N (erase t)); [|split; [reflexivity|exact HC]].
  pose proof (snext_matches _ _ _ N1) as M1. rewrite <- sadvance_plus in *. pose proof (D_advance (S i + S j) _ H) as H2.
  pose proof (expr_here n _ H2) as He.
  destruct (through_expr P SP hf n (E (sadvance (S i + S j) ts)) (sadvance (S i + S j) ts)) as [n1 [[e k] u]],
           (sparse_expr_ P SP hf n (E' (sadvance (S i + S j) ts))) as [n1' [[e' k'] u']].
  destruct He as [Hn (A & Hu & Ht & Mk)]. cbn [fst snd] in Hn, Hu. subst n1' u'. split; [reflexivity|]. cbn [snd].
  pose proof (D_advance k _ H2) as H3.
  rewrite (sends_flat _ _ blind_separator (D_fine _ H3)). rewrite skipn_map, stoks_sann, E_skipn, <- (proj1 Mk).
  destruct (ends is_separator (map erase (sflats (sadvance k (sadvance (S i + S j) ts))))) eqn:Ee.
  - cbn [either fst snd]. split; [split; [reflexivity|exact A]|]. split; [reflexivity|]. split; [exact Ht|]. split; [|lia].
    apply (smatches_plus ts (S i + S j) (1 + 1) k k'); [apply smatches_plus; assumption|exact Mk].
  - cbn [either]. apply separator_same; [exact H3|]. intros Z. rewrite Z in Ee. discriminate.
Qed.
Lemma peek_same ts : through_peek_ident P (E ts) = speek_ident P (E' ts).
Proof.
  unfold through_peek_ident, speek_ident. destruct (snext ts) as [i [t|]] eqn:N.
  - rewrite (sseen_some _ _ _ N), (E'_some _ _ _ N). destruct t as [x s|c j s|l s|[] xs s]; reflexivity.
  - rewrite (snext_none _ _ N). enough (Z : sseen (E ts) = []) by (rewrite Z; reflexivity).
    revert i N. induction ts as [|xs s r IHt|x r I IHt] using sentries_ind; intros i N; [reflexivity| |].
    + rewrite snext_invisible in N. destruct (snext (xs ++ r)) as [j o]. injection N as <- ->. rewrite E_invisible. cbn [sseen]. exact (IHt j eq_refl).
    + rewrite (snext_visible _ _ I) in N. discriminate.
Qed.

Definition spec_read (x : N * (list sitem * option bool * list stt * option syn_message + messages))
  (y : N * (list sitem * option bool * list satok * option syn_message + messages)) : Prop :=
  fst x = fst y /\
  either (fun a b => match a, b with
                     | (items, used, ts, u), (items', used', l, u') =>
                         Forall2 (same_definition D) items items' /\ used = used' /\ l = E' ts /\ D ts /\ u = u' /\ left_unread_text u
                     end) (snd x) (snd y).
Lemma spec_item_step ts used n : ts <> [] ->
  through_spec P SP hf (E ts) ts SItem used n =
  match through_spec_item P SP hf n (E ts) ts with
  | (n1, inl (item, S k, u)) =>
      let (n2, rest) := through_spec P SP hf (E ts) ts (SSkip (S k)) used n1 in
      (n2, match rest with
           | inl (items, used', rest', u') => inl (item :: items, used', rest', first_some u u')
           | inr e => inr e
           end)
  | (n1, inl _) => (n1, inr [])
  | (n1, inr e) => (n1, inr e)
  end.
Proof. intros NE. destruct (E ts) as [|e r] eqn:Ee; [destruct (NE (E_nil _ Ee))|]. reflexivity. Qed.
Lemma spec_skip k : forall ts used n, through_spec P SP hf (E ts) ts (SSkip k) used n = through_spec P SP hf (E (sadvance k ts)) (sadvance k ts) (SSkip 0) used n.
Proof.
  induction k as [|k IHk]; intros ts used n; [rewrite sadvance_0; reflexivity|].
  destruct (E ts) as [|e r] eqn:Ee; [rewrite (E_nil _ Ee); reflexivity|]. cbn [through_spec].
  rewrite (E_advance1 _ _ _ Ee), IHk. rewrite <- sadvance_plus. reflexivity.
Qed.
Lemma spec_skip' k : forall l used n, sparse_spec P SP hf l (Some k) used n = sparse_spec P SP hf (skipn k l) (Some 0) used n.
Proof. induction k as [|k IHk]; intros l used n; [reflexivity|]. destruct l as [|e r]; [reflexivity|]. cbn [sparse_spec skipn]. apply IHk. Qed.
Lemma spec_sep ts i t used n p msg :
  p = SSkip 0 /\ msg = error_at call_site (etoks (E ts)) (txt "Expected "","" or "";""") \/ p = SSep msg -> snext ts = (i, Some t) ->
  through_spec P SP hf (E ts) ts p used n =
  if is_separator (erase t) then
    let current := is_comma (erase t) in
    if match used with Some u => negb (Bool.eqb u current) | None => false end then (n, inr [error_at call_site (etoks (E (sadvance (S i) ts))) mixing_sep_error])
    else if through_peek_ident P (E (sadvance (S i) ts)) then through_spec P SP hf (E (sadvance (S i) ts)) (sadvance (S i) ts) SItem (Some current) n
    else (n, inl ([], Some current, sadvance (S i) ts, None))
  else (n, inr [msg]).
Proof.
  revert i p. induction ts as [|xs s r IHt|x r I IHt] using sentries_ind; intros i p Hp N; [discriminate| |].
  - rewrite snext_invisible in N. destruct (snext (xs ++ r)) as [j o] eqn:N'. injection N as <- ->.
    specialize (IHt j (SSep msg) (or_intror eq_refl) eq_refl). rewrite E_invisible in *.
    destruct Hp as [[-> ->]| ->]; cbn [through_spec sadvance]; rewrite ?sadvance_0; exact IHt.
  - rewrite (snext_visible _ _ I) in N. injection N as <- ->. rewrite (E_visible _ _ I) in *. rewrite (sadvance_visible 0 _ _ I), sadvance_0.
    destruct Hp as [[-> ->]| ->]; cbn [through_spec]; rewrite (sadvance_visible 0 _ _ I), sadvance_0, stok1_tok; reflexivity.
Qed.
Lemma spec_same ts used n : D ts -> ts <> [] ->
  spec_read (through_spec P SP hf (E ts) ts SItem used n) (sparse_spec P SP hf (E' ts) None used n).
Proof.
  remember (entries_of ts) as k eqn:Ek. assert (Hk : entries_of ts <= k) by lia. clear Ek. revert ts used n Hk.
  induction k as [|k IHk]; intros ts used n Hk H NE; [destruct (NE (sentries_nil ts ltac:(lia)))|].
  pose proof (D_flat_nil _ H NE) as NE'.
  rewrite (spec_item_step _ _ _ NE). pose proof (item_same n ts H) as Hi.
  destruct (E' ts) as [|b0 r0] eqn:E0; [apply map_eq_nil in E0; contradiction|]. cbn [sparse_spec]. rewrite <- E0 in *.
  destruct (through_spec_item P SP hf n (E ts) ts) as [n1 [[[a j] u]|er]], (sparse_spec_item P SP hf n (E' ts)) as [n1' [[[a' j'] u']|er']];
    destruct Hi as [Hn Hi]; cbn [fst snd either] in *; subst n1'; try contradiction.
  2: { split; [reflexivity|exact Hi]. }
  destruct Hi as (Ha & <- & Ht & M & Hj). destruct j as [|j]; [lia|].
  rewrite spec_skip, spec_skip'. replace (skipn j' r0) with (E' (sadvance (S j) ts)) by (rewrite (proj1 M), <- skipn_map, E0; reflexivity).
  pose proof (D_advance (S j) _ H) as H1. pose proof (sadvance_entries (S j) ts) as L1.
  destruct (sadvance (S j) ts) as [|t1 r1].
  { split; [reflexivity|]. cbn. split; [constructor; [exact Ha|constructor]|]. split; [reflexivity|]. split; [reflexivity|]. split; [exact H1|]. split; [reflexivity|].
    apply unread_first; [exact Ht|exact unread_none]. }
  set (ts1 := t1 :: r1) in *. destruct (sfine_next _ _ (D_fine _ H1)) as (i & x & N). fold ts1 in N.
  rewrite (spec_sep _ _ _ _ _ _ _ (or_introl (conj eq_refl eq_refl)) N), !error_E.
  pose proof (same_standing D call_site _ _ H1 no_comma_or_semicolon) as Hs. pose proof (D_advance (S i) _ H1) as H2.
  pose proof (same_standing D call_site _ _ H2 mixed_separators) as Hx.
  destruct (snext_some _ _ _ N) as (_ & Ef & _). rewrite Ef in Hs.
  rewrite (E'_some _ _ _ N). cbn [sparse_spec]. rewrite stok_sann, sflat1_erase, blind_comma, blind_separator.
  destruct (is_separator (erase x)).
  2: { split; [reflexivity|]. cbn [fst snd either]. constructor; [|constructor]. unfold stoks. cbn [map]. rewrite stok_sann. exact Hs. }
  cbv zeta. destruct (match used with Some u0 => negb (Bool.eqb u0 (is_comma (erase x))) | None => false end).
  { split; [reflexivity|]. cbn [fst snd either]. constructor; [|constructor]. rewrite stoks_sann. exact Hx. }
  rewrite <- peek_same. destruct (through_peek_ident P (E (sadvance (S i) ts1))) eqn:Ep.
  - assert (L2 : entries_of (sadvance (S i) ts1) <= k) by (rewrite sadvance_entries; destruct (snext_some _ _ _ N) as (_ & _ & L); lia).
    assert (NE2 : sadvance (S i) ts1 <> []) by (intros Z; rewrite Z in Ep; discriminate).
    destruct (IHk _ (Some (is_comma (erase x))) n1 L2 H2 NE2) as [G1 G2].
    destruct (through_spec P SP hf _ _ SItem _ n1) as [n2 o], (sparse_spec P SP hf _ None _ n1) as [n2' o']. cbn [fst snd] in *. subst n2'.
    split; [reflexivity|]. cbn [fst snd]. destruct o as [[[[l us] rs] w]|], o' as [[[[l' us'] rs'] w']|]; cbn [either] in *; try contradiction; [|exact G2].
    destruct G2 as (Q1 & Q2 & Q3 & Q4 & Q5 & Q6). split; [constructor; assumption|]. split; [exact Q2|]. split; [exact Q3|]. split; [exact Q4|]. subst w'. split; [reflexivity|].
    apply unread_first; assumption.
  - split; [reflexivity|]. cbn. split; [constructor; [exact Ha|constructor]|]. split; [reflexivity|]. split; [reflexivity|]. split; [exact H2|]. split; [reflexivity|].
    apply unread_first; [exact Ht|exact unread_none].
Qed.

(** ** Loops *)
Lemma source_value_same m (Hm : forall xs, ssizes xs < m -> D xs -> same xs) n ts : ok m ts -> ts <> [] ->
  corr (with_unread (same_source D)) ts (through_source_value P SP hf n (E ts) ts) (sparse_source_value P SP hf n (E' ts)).
Proof.
  intros H NE.
  assert (HE : forall n, corr (with_unread (same_source D)) ts
                 (match through_expr P SP hf n (E ts) ts with (n', (e, k, u)) => (n', inl (SLSValue e, u, k)) end)
                 (match sparse_expr_ P SP hf n (E' ts) with (n', (e, k, u)) => (n', inl (SLSValue e, u, k)) end)).
  { intros n0. pose proof (expr_same m Hm n0 ts H) as He. destruct (through_expr P SP hf n0 (E ts) ts) as [n1 [[e k] u]], (sparse_expr_ P SP hf n0 (E' ts)) as [n1' [[e' k'] u']].
    destruct He as [Hn (A & Hu & Ht & M)]. cbn [fst snd] in Hn, Hu. subst n1' u'. split; [reflexivity|]. cbn [snd either fst]. split; [|exact M]. split; [constructor; exact A|split; [reflexivity|exact Ht]]. }
  unfold through_source_value, sparse_source_value. destruct (snext ts) as [i [t|]] eqn:N; [|destruct (NE (sfine_none _ _ (D_fine _ (proj1 H)) N))].
  pose proof (begin_E _ (proj1 H) NE) as Hb. destruct (snext_some _ _ _ N) as (_ & Ef & _). rewrite Ef in Hb.
  rewrite (sseen_some _ _ _ N). rewrite (E'_some _ _ _ N) in *.
  destruct t as [x s|c j s|l s|d xs s]; cbn [sflat1 stok1 sann] in *; try apply HE. destruct d; try apply HE.
  cbn [s_tuple]. rewrite (E_minus _ _ _ N). destruct (ok_inside m Hm _ _ _ _ _ H N) as (_ & HT & _). specialize (HT (ds_close s) n). fold (sflats xs) in *.
  destruct (through_tuple P SP hf (ds_close s) (E xs) xs n) as [n1 o], (sparse_tuple P SP hf (ds_close s) (E' xs) n) as [n1' o'].
  cbn [fst snd] in HT. destruct HT as [<- HT]. destruct o as [[t u]|], o' as [[t' u']|]; cbn [either] in HT; try contradiction.
  - destruct HT as (Ht & Hu & Hl). cbn [fst snd] in *. split; [reflexivity|]. cbn [snd either fst]. split; [|exact (snext_matches _ _ _ N)].
    split; [constructor; [exact Hb|exact Ht]|split; assumption].
  - apply HE.
Qed.
Lemma source_list_same n ts : D ts ->
  match through_source_list P SP hf n (E ts), E' ts with
  | (n', inl (vals, u, r)), src :: r' =>
      exists i t, snext ts = (i, Some t) /\ r = E (sadvance (S i) ts) /\
      match sparse_source_list P SP hf n src with
      | (n1, inl (vals', u')) => n' = n1 /\ with_unread (Forall2 (same_source D)) (vals, u) (vals', u')
      | _ => False
      end
  | (n', inr e), src :: r' => match sparse_source_list P SP hf n src with (n1, inr e') => n' = n1 /\ MS e e' | _ => False end
  | (n', inr e), [] => n' = n /\ MS e [error_at call_site [] (txt "expected square brackets")]
  | _, _ => False
  end.
Proof.
  intros H. unfold through_source_list, sparse_source_list. rewrite error_E. pose proof (same_standing D call_site _ _ H no_list) as Hs.
  destruct (snext ts) as [i [t|]] eqn:N.
  2: { pose proof (sfine_none _ _ (D_fine _ H) N). subst ts. split; [reflexivity|]. constructor; [exact Hs|constructor]. }
  rewrite (sseen_some _ _ _ N), (E'_some _ _ _ N), stok1_tok, stok_sann. destruct (snext_some _ _ _ N) as (_ & Ef & _). rewrite Ef in Hs.
  assert (HS : MS [error_at call_site ts (txt "expected square brackets")] [error_at call_site [sflat1 t] (txt "expected square brackets")])
    by (constructor; [exact Hs|constructor]).
  destruct t as [x s|c j s|l s|d xs s]; cbn [sflat1] in *; try (split; [reflexivity|exact HS]). destruct d; try (split; [reflexivity|exact HS]).
  pose proof (D_in_next _ _ _ _ _ _ H N eq_refl) as Hx.
  destruct (terminated_same (ssizes xs) (with_unread (same_source D)) (ds_close s) _ _ (source_value_same (ssizes xs) (below xs)) xs n (top xs Hx)) as [A B].
  destruct (through_terminated _ _ _ _ _ n) as [n1 o], (sparse_terminated _ _ _ None n) as [n1' o']. cbn [fst snd] in *. subst n1'.
  destruct o as [l|], o' as [l'|]; cbn [either] in *; try contradiction; [|split; [reflexivity|exact B]].
  destruct (first_unexpected l) as [vals u] eqn:F1. exists i, (SGroup Bracket xs s). split; [reflexivity|]. split; [reflexivity|].
  pose proof (first_unexpected_same _ _ _ B) as F. rewrite F1 in F. destruct (first_unexpected l') as [vals' u']. split; [reflexivity|exact F].
Qed.
Lemma loop_alias_same ts : D ts ->
  match through_loop_alias P (E ts), E' ts with
  | inl (al, r), t' :: r' => exists i t, snext ts = (i, Some t) /\ r = E (sadvance (S i) ts) /\ sparse_loop_alias P t' r' = inl al
  | inr e, t' :: r' => match sparse_loop_alias P t' r' with inr e' => MS e e' | inl _ => False end
  | inr e, [] => MS e [expected_ident call_site []]
  | inl _, [] => False
  end.
Proof.
  intros H. unfold through_loop_alias, sparse_loop_alias. pose proof (ident_E call_site _ H) as Hm.
  destruct (snext ts) as [i [t|]] eqn:N.
  2: { pose proof (sfine_none _ _ (D_fine _ H) N). subst ts. constructor; [exact Hm|constructor]. }
  assert (HE : MS [through_expected_ident call_site (E ts)] [expected_ident call_site (stoks (E' ts))]) by (rewrite stoks_sann; constructor; [exact Hm|constructor]).
  assert (HH : MS [new_message (place call_site (etoks (E ts))) (txt "Failed to parse loop alias (see errors below)")]
                  [new_message (place call_site (stoks (E' ts))) (txt "Failed to parse loop alias (see errors below)")]).
  { rewrite place_E, stoks_sann. constructor; [|constructor]. apply same_heading; [exact H|exact (some_not_nil _ _ _ N)|constructor]. }
  rewrite (sseen_some _ _ _ N), stok1_tok. rewrite (E'_some _ _ _ N) in *. rewrite stok_sann.
  destruct t as [x s|c j s|l s|d xs s]; cbn [sflat1] in *; try exact HE.
  - destruct (ident_allowed P x); [|exact HE]. eauto.
  - destruct d; try exact HE. destruct (all_same _ (D_in_next _ _ _ _ _ _ H N eq_refl)) as (_ & _ & HP). specialize (HP (ds_close s)).
    cbn [stok1 sann s_pattern]. fold (sflats xs) in *. destruct (through_pattern P (ds_close s) (E xs) xs), (sparse_pattern P (ds_close s) (E' xs)); cbn [either] in HP; try contradiction.
    + subst. eauto.
    + unfold combine_errors. cbn [List.concat app]. inversion HH; subst. constructor; [assumption|]. apply Forall2_app; [exact HP|]. exact HE.
Qed.

Lemma cons_eq (A : Type) (a b : A) l m : a :: l = b :: m -> b = a /\ m = l.
Proof. intros Q. inversion Q. split; reflexivity. Qed.
Arguments cons_eq {A}.
Definition loops_read (x : N * (list sloop_item * list sentry * list stt * option syn_message + messages)) (y : N * (list sloop_item * list satok * option syn_message + messages)) : Prop :=
  fst x = fst y /\
  either (fun a b => match a, b with
                     | (items, l, ts, u), (items', l', u') =>
                         Forall2 (same_loop D) items items' /\ l = E ts /\ l' = E' ts /\ D ts /\ u = u' /\ left_unread_text u
                     end) (snd x) (snd y).
Lemma loops_skip k : forall ts n, through_loops P SP hf (E ts) ts k n = through_loops P SP hf (E (sadvance k ts)) (sadvance k ts) 0 n.
Proof.
  induction k as [|k IHk]; intros ts n; [rewrite sadvance_0; reflexivity|].
  destruct (E ts) as [|e r] eqn:Ee; [rewrite (E_nil _ Ee); reflexivity|]. cbn [through_loops].
  rewrite (E_advance1 _ _ _ Ee), IHk. rewrite <- sadvance_plus. reflexivity.
Qed.
Lemma loops_step ts n : ts <> [] ->
  through_loops P SP hf (E ts) ts 0 n =
  match through_loop P SP hf n (E ts) with
  | (n1, inr e) => (n1, inr e)
  | (n1, inl None) => (n1, inl ([], E ts, ts, None))
  | (n1, inl (Some (item, u, k))) =>
      let (n2, rest) := through_loops P SP hf (E (sadvance 1 ts)) (sadvance 1 ts) (pred k) n1 in
      (n2, match rest with
           | inl (items, l', ts', u') => inl (item :: items, l', ts', first_some u u')
           | inr e => inr e
           end)
  end.
Proof.
  intros NE. destruct (E ts) as [|e r] eqn:Ee; [destruct (NE (E_nil _ Ee))|]. cbn [through_loops].
  rewrite (E_advance1 _ _ _ Ee). reflexivity.
Qed.
Lemma loops_same ts n : D ts -> loops_read (through_loops P SP hf (E ts) ts 0 n) (sparse_loops P SP hf (E' ts) n).
Proof.
  remember (entries_of ts) as k eqn:Ek. assert (Hk : entries_of ts <= k) by lia. clear Ek. revert ts n Hk.
  induction k as [|k IHk]; intros ts n Hk H.
  { assert (ts = []) by (apply sentries_nil; lia). subst ts. split; [reflexivity|]. cbn. repeat split; [constructor|exact H|exact unread_none]. }
  destruct ts as [|t0 r0]; [split; [reflexivity|cbn; repeat split; [constructor|exact H|exact unread_none]]|]. set (ts := t0 :: r0) in *. assert (NE : ts <> []) by discriminate.
  rewrite (loops_step _ _ NE). unfold through_loop. destruct (sfine_next _ _ (D_fine _ H)) as (i & f & N). fold ts in N.
  rewrite (sseen_some _ _ _ N). pose proof (E'_some _ _ _ N) as EE. rewrite EE. cbn [sparse_loops]. rewrite stok1_tok, stok_sann, sflat1_erase, (blind_word _ (erase f)).
  destruct (is_word (txt "for") (erase f)).
  2: { split; [reflexivity|]. cbn. repeat split; [constructor|symmetry; exact EE|exact H|exact unread_none]. }
  pose proof (D_advance (S i) _ H) as H1. set (ts1 := sadvance (S i) ts) in *.
  pose proof (loop_alias_same ts1 H1) as Ha.
  destruct (through_loop_alias P (E ts1)) as [[al r1]|er].
  2: { destruct (E' ts1) as [|t' r']; [split; [reflexivity|exact Ha]|]. destruct (sparse_loop_alias P t' r') as [?|er']; [contradiction|]. split; [reflexivity|exact Ha]. }
  destruct (E' ts1) as [|t' r'] eqn:E1; [contradiction|]. destruct Ha as (i1 & t & N1 & -> & Ha). rewrite Ha.
  rewrite (E'_some _ _ _ N1) in E1. destruct (cons_eq _ _ _ _ E1) as [-> ->].
  pose proof (D_advance (S i1) _ H1) as H2. set (ts2 := sadvance (S i1) ts1) in *.
  pose proof (same_standing D call_site _ _ H2 no_in) as Hin. unfold expected_word. rewrite error_E.
  assert (HIN : MS [error_at call_site ts2 (txt "expected `" ++ txt "in" ++ txt "`")] [error_at call_site (stoks (E' ts2)) (txt "expected `" ++ txt "in" ++ txt "`")])
    by (rewrite stoks_sann; constructor; [exact Hin|constructor]).
  destruct (snext ts2) as [i2 [kw|]] eqn:N2.
  2: { rewrite (sfine_none _ _ (D_fine _ H2) N2) in *. split; [reflexivity|exact HIN]. }
  rewrite (sseen_some _ _ _ N2). rewrite (E'_some _ _ _ N2) in *. rewrite stok1_tok, stok_sann, sflat1_erase, (blind_word _ (erase kw)).
  destruct (is_word (txt "in") (erase kw)); [|split; [reflexivity|exact HIN]].
  pose proof (D_advance (S i2) _ H2) as H3. set (ts3 := sadvance (S i2) ts2) in *.
  pose proof (source_list_same n ts3 H3) as Hl.
  destruct (through_source_list P SP hf n (E ts3)) as [n1 [[[vals u] r]|er]].
  2: { destruct (E' ts3) as [|src r']; [destruct Hl as [-> Hl]; split; [reflexivity|exact Hl]|].
       destruct (sparse_source_list P SP hf n src) as [n1' [[? ?]|er']]; [contradiction|]. destruct Hl as [-> Hl]. split; [reflexivity|exact Hl]. }
  destruct (E' ts3) as [|src r'] eqn:E3; [contradiction|]. destruct Hl as (i3 & st & N3 & -> & Hl).
  rewrite (E'_some _ _ _ N3) in E3. destruct (cons_eq _ _ _ _ E3) as [-> ->].
  destruct (sparse_source_list P SP hf n _) as [n1' [[vals' u']|]]; [|contradiction]. destruct Hl as [<- (Hv & Hu & Ht)]. cbn [fst snd] in *. subst u'.
  pose proof (D_advance (S i3) _ H3) as H4. set (ts4 := sadvance (S i3) ts3) in *.
  assert (L : List.length (E ts) - List.length (E ts4) = S (i + S i1 + S i2 + S i3)).
  { destruct (snext_some _ _ _ N) as (_ & _ & La). destruct (snext_some _ _ _ N1) as (_ & _ & Lb).
    destruct (snext_some _ _ _ N2) as (_ & _ & Lc). destruct (snext_some _ _ _ N3) as (_ & _ & Ld).
    rewrite !E_length. unfold ts4, ts3, ts2, ts1 in *. rewrite !sadvance_entries in *. lia. }
  rewrite L. cbn [pred]. rewrite loops_skip, <- sadvance_plus.
  assert (P4 : sadvance (1 + (i + S i1 + S i2 + S i3)) ts = ts4).
  { unfold ts4, ts3, ts2, ts1. rewrite <- !sadvance_plus. f_equal. lia. }
  rewrite P4. assert (L4 : entries_of ts4 <= k) by (rewrite <- P4, sadvance_entries; lia).
  destruct (IHk ts4 n1 L4 H4) as [G1 G2].
  destruct (through_loops P SP hf (E ts4) ts4 0 n1) as [n2 o], (sparse_loops P SP hf (E' ts4) n1) as [n2' o']. cbn [fst snd] in *. subst n2'.
  split; [reflexivity|]. cbn [fst snd]. destruct o as [[[[l le] lt] w]|], o' as [[[l' le'] w']|]; cbn [either] in *; try contradiction; [|exact G2].
  destruct G2 as (Q1 & Q2 & Q3 & Q4 & Q5 & Q6). split; [constructor; [split; [reflexivity|exact Hv]|exact Q1]|]. subst w'. repeat split; try assumption. apply unread_first; assumption.
Qed.

(** ** Whole inputs *)
Definition header_read (x : option (list sloop_item) * option salias_spec * list stt * option syn_message + messages)
  (y : option (list sloop_item) * option salias_spec * list satok * option syn_message + messages) : Prop :=
  either (fun a b => match a, b with
                     | (loops, spec, ts, u), (loops', spec', l, u') =>
                         both (Forall2 (same_loop D)) loops loops' /\ both (same_spec D) spec spec' /\ l = E' ts /\ D ts /\ u = u' /\ left_unread_text u
                     end) x y.
Lemma header_same n ts : D ts -> header_read (through_header P SP hf n ts) (sparse_header P SP hf n (E' ts)).
Proof.
  intros H. unfold through_header, sparse_header. destruct (loops_same ts n H) as [A B].
  destruct (through_loops P SP hf (E ts) ts 0 n) as [n1 o], (sparse_loops P SP hf (E' ts) n) as [n1' o']. cbn [fst snd] in *. subst n1'.
  destruct o as [[[[loops l1] ts1] u]|], o' as [[[loops' l1'] u']|]; cbn [either] in *; try contradiction; [|exact B].
  destruct B as (B1 & -> & -> & H1 & <- & Ht). rewrite <- peek_same.
  assert (BL : both (Forall2 (same_loop D)) (match loops with [] => None | _ => Some loops end) (match loops' with [] => None | _ => Some loops' end)).
  { inversion B1; subst; [exact I|]. cbn [both]. exact B1. }
  destruct (through_peek_ident P (E ts1)) eqn:Ep.
  - assert (NE : ts1 <> []) by (intros Z; rewrite Z in Ep; discriminate).
    destruct (spec_same ts1 None n1 H1 NE) as [_ S2].
    destruct (through_spec P SP hf (E ts1) ts1 SItem None n1) as [n2 o], (sparse_spec P SP hf (E' ts1) None None n1) as [n2' o']. cbn [snd] in *.
    destruct o as [[[[items used] ts2] w]|], o' as [[[[items' used'] l2] w']|]; cbn [either] in S2; try contradiction; [|exact S2].
    destruct S2 as (Q1 & <- & -> & H2 & <- & Hw). split; [exact BL|]. split; [split; [reflexivity|exact Q1]|]. repeat split; try assumption. apply unread_first; assumption.
  - cbn. repeat split; assumption.
Qed.

Lemma semicolons_same spec spec' : both (same_spec D) spec spec' -> suses_semicolons spec = suses_semicolons spec'.
Proof. destruct spec as [s|], spec' as [s'|]; try contradiction; [|reflexivity]. intros [H _]. cbn. rewrite H. reflexivity. Qed.
Lemma mixed_same t spec spec' : both (same_spec D) spec spec' -> strailing_mixed (sflat1 t) spec' = strailing_mixed t spec.
Proof. destruct spec as [s|], spec' as [s'|]; try contradiction; [|reflexivity]. intros [H _]. cbn. rewrite H, sflat1_erase, blind_comma. reflexivity. Qed.
Lemma finish_same sc u ts ast ast' : D ts -> left_unread_text u -> same_sast D ast ast' ->
  same_sparse D SP (through_finish sc u ts ast) (finish sc u (sflats ts) ast').
Proof.
  intros H Hu Ha. unfold through_finish, finish. rewrite (left_over_flat _ H). destruct u as [msg|]; cbn [first_some].
  - split; [reflexivity|]. left. constructor; [exact (same_unread _ _ Hu eq_refl)|constructor].
  - destruct (sflats ts) as [|t r]; cbn [hd_error option_map]; split; try reflexivity; [exact Ha|]. left. constructor; [apply same_unexpected|constructor].
Qed.

Theorem func_same n ts : D ts -> same_sparse D SP (through_func_macro P SP hf n ts) (sparse_func_macro P SP hf n (sflats ts)).
Proof.
  intros H. unfold through_func_macro, sparse_func_macro. pose proof (header_same n ts H) as Hh.
  destruct (through_header P SP hf n ts) as [[[[loops spec] ts1] u]|er], (sparse_header P SP hf n (E' ts)) as [[[[loops' spec'] l1] u']|er']; cbn in Hh; try contradiction.
  2: { split; [reflexivity|]. left. exact Hh. }
  destruct Hh as (HL & HS & -> & H1 & <- & Ht). rewrite stoks_sann. pose proof (S_block _ H1) as Hb. unfold sagree in Hb.
  destruct (spre_block SP ts1) as [[[b k] w]|], (spre_block SP (sflats ts1)) as [[[b' k'] w']|]; try contradiction.
  2: { split; [reflexivity|]. right. exists ts1. auto. }
  destruct Hb as (HB & <- & Hw & M). cbv zeta. rewrite <- (semicolons_same _ _ HS), <- (proj1 M).
  pose proof (D_advance k _ H1) as H2. pose proof (unread_first _ _ Ht Hw) as Hu.
  assert (HA : same_sast D {| sa_loops := loops; sa_spec := spec; sa_block := b |} {| sa_loops := loops'; sa_spec := spec'; sa_block := b' |}) by (split; [exact HL|split; [exact HS|exact HB]]).
  destruct (snext (sadvance k ts1)) as [i [t|]] eqn:N.
  - pose proof (finish_same (Some (suses_semicolons spec)) _ _ _ _ H2 Hu HA) as Hf.
    destruct (snext_some _ _ _ N) as (_ & Ef & _). rewrite Ef in *. rewrite sflat1_erase, (blind_separator (erase t)), (mixed_same t _ _ HS).
    pose proof (D_advance (S i) _ H2) as H3.
    destruct (is_separator (erase t)); [|exact Hf]. destruct (strailing_mixed t spec).
    + split; [reflexivity|]. left. constructor; [|constructor]. apply same_standing; [exact H3|constructor].
    + apply finish_same; assumption.
  - rewrite (sfine_none _ _ (D_fine _ H2) N) in H2 |- *. apply (finish_same _ _ []); assumption.
Qed.

Theorem attr_same n attr item :
  D attr -> D [sgroup Brace call_site item] ->
  (forall b k u b' k' u', spre_block SP [sgroup Brace call_site item] = Some (b, k, u) -> spre_block SP [sgroup Brace call_site (sflats item)] = Some (b', k', u') -> k = 1 <-> k' = 1) ->
  same_sparse D SP (through_attr_macro P SP hf n attr item) (sparse_attr_macro P SP hf n (sflats attr) (sflats item)).
Proof.
  intros H Hi H1. unfold through_attr_macro, sparse_attr_macro. pose proof (header_same n attr H) as Hh.
  destruct (through_header P SP hf n attr) as [[[[loops spec] ts1] u]|er], (sparse_header P SP hf n (E' attr)) as [[[[loops' spec'] l1] u']|er']; cbn in Hh; try contradiction.
  2: { split; [reflexivity|]. left. exact Hh. }
  destruct Hh as (HL & HS & -> & H2 & <- & Ht). cbv zeta. rewrite stoks_sann, <- (semicolons_same _ _ HS).
  assert (HK : either (fun r r' => D r /\ sflats r = r') (through_skip_separator loops spec ts1) (sskip_separator loops' spec' (sflats ts1))).
  { unfold through_skip_separator, sskip_separator. pose proof (same_standing D call_site _ _ H2 behind_loops) as Hs. destruct (snext ts1) as [i [t|]] eqn:N.
    - pose proof (D_advance (S i) _ H2) as H3. destruct (snext_some _ _ _ N) as (_ & Ef & _). rewrite Ef in *. rewrite sflat1_erase, (blind_separator (erase t)). destruct (is_separator (erase t)); [|split; [exact H2|exact Ef]].
      destruct spec, spec'; try contradiction; [split; [exact H3|reflexivity]|]. destruct loops, loops'; try contradiction; [constructor; [exact Hs|constructor]|split; [exact H2|exact Ef]].
    - rewrite (snext_none _ _ N). split; [exact H2|exact (snext_none _ _ N)]. }
  destruct (through_skip_separator loops spec ts1) as [r|], (sskip_separator loops' spec' (sflats ts1)) as [r'|]; cbn [either] in HK; try contradiction.
  2: { split; [reflexivity|]. left. exact HK. }
  destruct HK as [H3 <-]. rewrite (left_over_flat _ H3). unfold finish at 1. destruct u as [msg|]; cbn [first_some].
  { split; [reflexivity|]. left. constructor; [exact (same_unread _ _ Ht eq_refl)|constructor]. }
  destruct (sflats r) as [|t0 r0]; cbn [hd_error option_map sp_ast ssyntax_error].
  2: { split; [reflexivity|]. left. constructor; [apply same_unexpected|constructor]. }
  pose proof (S_block _ Hi) as Hb. unfold sagree in Hb. change (sflats [sgroup Brace call_site item]) with [sgroup Brace call_site (sflats item)] in Hb.
  destruct (spre_block SP [sgroup Brace call_site item]) as [[[b k] w]|], (spre_block SP [sgroup Brace call_site (sflats item)]) as [[[b' k'] w']|]; try contradiction.
  2: { split; [reflexivity|]. right. exists [sgroup Brace call_site item]. auto. }
  destruct Hb as (HB & <- & Hw & _). specialize (H1 _ _ _ _ _ _ eq_refl eq_refl).
  assert (HA : same_sast D {| sa_loops := loops; sa_spec := spec; sa_block := b |} {| sa_loops := loops'; sa_spec := spec'; sa_block := b' |}) by (split; [exact HL|split; [exact HS|exact HB]]).
  destruct (Nat.eqb_spec k 1) as [K|K], (Nat.eqb_spec k' 1) as [K'|K']; try lia.
  - apply (finish_same _ _ []); [exact (D_front [] _ Hi)|exact Hw|exact HA].
  - apply (finish_same _ _ [sgroup Brace call_site item]); [exact Hi|exact Hw|exact HA].
Qed.
End Same.
