(** The case conversions: their words, and what they do to one another. *)
From Coq Require Import String.
From Verif Require Import Base BaseFacts Token FormatString Concrete RustLexer RustText SpecCasing.
Open Scope list_scope.

(** ** Characters *)
Ltac chars :=
  unfold ident_start, ident_continue, is_alnum, is_alpha, up, low in *; unfold is_lower, is_upper, is_digit, in_range in *;
  repeat match goal with
         | H : context[N.leb ?a ?b] |- _ => destruct (N.leb_spec a b); cbn [andb orb negb] in *
         | |- context[N.leb ?a ?b] => destruct (N.leb_spec a b); cbn [andb orb negb] in *
         | H : context[N.eqb ?a ?b] |- _ => destruct (N.eqb_spec a b); cbn [andb orb negb] in *
         | |- context[N.eqb ?a ?b] => destruct (N.eqb_spec a b); cbn [andb orb negb] in *
         end; try reflexivity; try discriminate; try lia.

Lemma lower_alnum c : is_lower c = true -> is_alnum c = true. Proof. intros H. chars. Qed.
Lemma upper_alnum c : is_upper c = true -> is_alnum c = true. Proof. intros H. chars. Qed.
Lemma lower_upper c : is_lower c = true -> is_upper c = false. Proof. intros H. chars. Qed.
Lemma digit_lower c : is_digit c = true -> is_lower c = false. Proof. intros H. chars. Qed.
Lemma digit_upper c : is_digit c = true -> is_upper c = false. Proof. intros H. chars. Qed.
Lemma alnum_digit c : is_alnum c = true -> is_lower c = false -> is_upper c = false -> is_digit c = true. Proof. intros H H1 H2. chars. Qed.
Lemma alnum_cases c : is_alnum c = false -> is_lower c = false /\ is_upper c = false /\ is_digit c = false.
Proof. intros H. repeat split; chars. Qed.
Lemma low_alnum c : is_alnum (low c) = is_alnum c. Proof. chars. Qed.
Lemma up_alnum c : is_alnum (up c) = is_alnum c. Proof. chars. Qed.
Lemma low_upper c : is_upper (low c) = false. Proof. chars. Qed.
Lemma up_lower c : is_lower (up c) = false. Proof. chars. Qed.
Lemma low_low c : low (low c) = low c. Proof. chars. Qed.
Lemma up_up c : up (up c) = up c. Proof. chars. Qed.
Lemma low_up c : low (up c) = low c. Proof. chars. Qed.
Lemma up_low c : up (low c) = up c. Proof. chars. Qed.

(** ** The words are those of heck *)
Definition head_is (f : chr -> bool) (x : str) : bool := match x with c :: _ => f c | [] => false end.
Definition fits (m : mode) (here before x : str) : Prop :=
  (here <> [] -> head_is is_alnum before = true) /\
  match m with
  | Lowercase => last_case before = Some false /\ head_is is_upper x = false
  | Uppercase => last_case before = Some true /\ here <> []
  | Boundary => last_case before = None \/ (here = [] /\ head_is is_upper x = true /\ last_case before = Some false) \/ head_is is_lower x = true
  end.

Lemma split_cons before c r : split_words before (c :: r) =
  if is_alnum c then put_before (c :: before) [c] r (split_words (c :: before) r) else split_words (c :: before) r.
Proof. reflexivity. Qed.
Lemma split_starts before c r : is_alnum c = true -> exists w ws, split_words before (c :: r) = (c :: w) :: ws.
Proof.
  intros H. rewrite split_cons, H. unfold put_before. destruct r as [|d r']; [eexists; eexists; reflexivity|].
  destruct (is_alnum d && _); [|eexists; eexists; reflexivity]. destruct (split_words (c :: before) (d :: r')) as [|w ws]; eexists; eexists; reflexivity.
Qed.
Lemma put_nil before x : put_before before [] x (split_words before x) = split_words before x.
Proof.
  unfold put_before. destruct x as [|d r]; [reflexivity|]. destruct (is_alnum d) eqn:E; [|reflexivity]. cbn [andb].
  destruct (split_starts before d r E) as (w & ws & ->). destruct (negb _); reflexivity.
Qed.
Lemma put_apart before h d r ws : h <> [] -> begins_word before d r = true -> put_before before h (d :: r) ws = h :: ws.
Proof. intros H E. unfold put_before. rewrite E, andb_false_r. destruct h; [congruence|reflexivity]. Qed.
Lemma put_end before h d r ws : h <> [] -> is_alnum d = false -> put_before before h (d :: r) ws = h :: ws.
Proof. intros H E. unfold put_before. rewrite E. destruct h; [congruence|reflexivity]. Qed.
Lemma put_joined before h c r ws : is_alnum c = true -> begins_word before c r = false ->
  put_before before h (c :: r) (put_before (c :: before) [c] r ws) = put_before (c :: before) (h ++ [c]) r ws.
Proof.
  intros Hc Hb. unfold put_before at 1. rewrite Hc, Hb. cbn [andb negb].
  assert (Hn : h ++ [c] <> []) by (destruct h; discriminate).
  unfold put_before. destruct r as [|d r']; [destruct (h ++ [c]) eqn:E; [congruence|]; reflexivity|].
  destruct (is_alnum d && _); [|destruct (h ++ [c]) eqn:E; [congruence|]; reflexivity]. destruct ws as [|w ws]; [reflexivity|]. rewrite <- app_assoc. reflexivity.
Qed.
Lemma rev_ne {A} (l : list A) : l <> [] -> rev l <> [].
Proof. intros H E. apply H. rewrite <- (rev_involutive l), E. reflexivity. Qed.

Theorem heck_words_from : forall x m here before, fits m here before x ->
  words_of m here x = put_before before (rev here) x (split_words before x).
Proof.
  induction x as [|c r IH]; intros m here before [Hh Hm].
  - cbn [words_of split_words put_before]. destruct here as [|h here]; [reflexivity|]. destruct (rev (h :: here)) eqn:E; [|reflexivity]. exfalso. exact (rev_ne (h :: here) ltac:(discriminate) E).
  - cbn [words_of]. destruct (is_alnum c) eqn:Ec; cbn [negb].
    2:{ rewrite (IH Boundary [] (c :: before)).
        2:{ split; [congruence|]. left. cbn [last_case]. destruct (alnum_cases c Ec) as (-> & -> & ->). reflexivity. }
        rewrite split_cons, Ec. cbn [rev]. rewrite put_nil. destruct here as [|h here]; [cbn [rev app]; unfold put_before; rewrite Ec; reflexivity|].
        rewrite put_end; [reflexivity|apply rev_ne; discriminate|exact Ec]. }
    assert (Hjoin : begins_word before c r = false \/ here = [] \/ (m = Uppercase /\ is_upper c = true /\ head_is is_lower r = true)).
    { destruct here as [|h here]; [right; left; reflexivity|]. specialize (Hh ltac:(discriminate)). unfold begins_word. destruct before as [|b before]; [discriminate|].
      cbn [head_is] in Hh. rewrite Hh. cbn [negb orb]. destruct (is_upper c) eqn:Eu; [|left; reflexivity]. cbn [andb].
      destruct m; cbn [head_is] in Hm.
      - destruct Hm as [->|[(? & _)|Hl]]; [left; reflexivity|discriminate|]. pose proof (lower_upper c Hl). congruence.
      - destruct Hm as [_ Hm]. congruence.
      - destruct Hm as [-> _]. destruct r as [|d r']; [left; reflexivity|]. destruct (is_lower d) eqn:Ed; [|left; reflexivity]. right. right. cbn [head_is]. auto. }
    assert (Hstep : begins_word before c r = false \/ here = [] ->
      put_before before (rev here) (c :: r) (split_words before (c :: r)) = put_before (c :: before) (rev (c :: here)) r (split_words (c :: before) r)).
    { intros [Hb| ->].
      - rewrite split_cons, Ec. cbn [rev]. apply put_joined; assumption.
      - cbn [rev]. rewrite put_nil, split_cons, Ec. reflexivity. }
    destruct r as [|next r'].
    + cbn [words_of]. rewrite Hstep; [|destruct Hjoin as [H|[H|(_ & _ & H)]]; [left; exact H|right; exact H|discriminate]]. cbn [put_before split_words].
      destruct (rev (c :: here)) eqn:E; [exfalso; exact (rev_ne (c :: here) ltac:(discriminate) E)|reflexivity].
    + set (m' := if is_lower c then Lowercase else if is_upper c then Uppercase else m).
      assert (Hm' : mode_eqb m' Lowercase = true -> last_case (c :: before) = Some false /\ is_upper c = false).
      { unfold m'. cbn [last_case]. destruct (is_lower c) eqn:El; [rewrite (lower_upper c El); auto|]. destruct (is_upper c) eqn:Eu; [discriminate|].
        rewrite (alnum_digit c Ec El Eu). destruct m; try discriminate. intros _. destruct Hm as [Hm _]. auto. }
      destruct (mode_eqb m' Lowercase && is_upper next) eqn:E1.
      * apply andb_prop in E1 as [E1 Eu]. destruct (Hm' E1) as [Hl Hcu].
        rewrite Hstep by (destruct Hjoin as [H|[H|(_ & H & _)]]; [left; exact H|right; exact H|congruence]).
        rewrite put_apart; [|apply rev_ne; discriminate|unfold begins_word; rewrite Eu, Hl; cbn [andb]; rewrite orb_true_r; reflexivity].
        rewrite (IH Boundary [] (c :: before)); [cbn [rev]; rewrite put_nil; reflexivity|]. split; [congruence|]. right. left. cbn [head_is]. auto.
      * destruct (mode_eqb m Uppercase && is_upper c && is_lower next) eqn:E2.
        -- apply andb_prop in E2 as [E2 Enl]. apply andb_prop in E2 as [E2 Eu]. assert (m = Uppercase) by (destruct m; [discriminate|discriminate|reflexivity]). subst m. destruct Hm as [Hm Hn].
           rewrite (IH Boundary [c] (c :: before)); [|split; [intros _; exact Ec|right; right; exact Enl]].
           rewrite (split_cons before c), Ec. cbn [rev app].
           rewrite (put_apart before (rev here) c); [|apply rev_ne; exact Hn|unfold begins_word; rewrite Eu, Hm, Enl; cbn [andb]; rewrite orb_true_r; reflexivity].
           destruct here; [congruence|]. reflexivity.
        -- rewrite Hstep; [|destruct Hjoin as [H|[H|(-> & Hu & Hl)]]; [left; exact H|right; exact H|]; cbn [head_is] in Hl; rewrite Hu, Hl in E2; discriminate].
           apply IH. split; [intros _; exact Ec|]. clear Hm'. subst m'. destruct (is_lower c) eqn:El.
           ++ cbn [last_case]. rewrite El. split; [reflexivity|]. exact E1.
           ++ destruct (is_upper c) eqn:Eu; [cbn [last_case]; rewrite El, Eu; split; [reflexivity|discriminate]|].
              pose proof (alnum_digit c Ec El Eu) as Ed. cbn [last_case]. rewrite El, Eu, Ed.
              destruct m; cbn [mode_eqb andb] in E1.
              ** cbn [head_is] in Hm. destruct Hm as [Hm|[(_ & Hm & _)|Hm]]; [left; exact Hm|congruence|congruence].
              ** split; [exact (proj1 Hm)|exact E1].
              ** split; [exact (proj1 Hm)|discriminate].
Qed.
Theorem heck_words x : words_of Boundary [] x = words x.
Proof. unfold words. rewrite (heck_words_from x Boundary [] []); [apply put_nil|]. split; [congruence|left; reflexivity]. Qed.

(** ** Words *)
Definition solid (before w rest : str) : Prop :=
  forall p d s, w = p ++ d :: s -> p <> [] -> begins_word (rev p ++ before) d (s ++ rest) = false.
Lemma put_attached b b' h d t r rest ws : is_alnum d = true -> begins_word b d r = false ->
  put_before b h (d :: r) (put_before b' (d :: t) rest ws) = put_before b' (h ++ d :: t) rest ws.
Proof.
  intros Hd Hb. unfold put_before at 1. rewrite Hd, Hb. cbn [andb negb].
  assert (Hn : h ++ d :: t <> []) by (destruct h; discriminate).
  unfold put_before. destruct rest as [|e rest']; [destruct (h ++ d :: t) eqn:E; [congruence|]; reflexivity|].
  destruct (is_alnum e && _); [|destruct (h ++ d :: t) eqn:E; [congruence|]; reflexivity]. destruct ws as [|w ws]; [reflexivity|].
  change (d :: t ++ w) with ((d :: t) ++ w). rewrite app_assoc. reflexivity.
Qed.
Lemma split_solid : forall w before rest, w <> [] -> forallb is_alnum w = true -> solid before w rest ->
  split_words before (w ++ rest) = put_before (rev w ++ before) w rest (split_words (rev w ++ before) rest).
Proof.
  induction w as [|c t IH]; intros before rest Hn Ha Hs; [congruence|]. cbn [forallb] in Ha. apply andb_prop in Ha as [Hc Ha].
  cbn [app]. rewrite split_cons, Hc. destruct t as [|d t]; [reflexivity|].
  rewrite (IH (c :: before) rest); [|discriminate|exact Ha|].
  2:{ intros p e s E Hp. specialize (Hs (c :: p) e s ltac:(rewrite E; reflexivity) ltac:(discriminate)). cbn [rev] in Hs. rewrite <- app_assoc in Hs. exact Hs. }
  cbn [app]. rewrite put_attached.
  - cbn [rev]. rewrite <- !app_assoc. reflexivity.
  - cbn [forallb] in Ha. apply andb_prop in Ha as [Ha _]. exact Ha.
  - exact (Hs [c] d t eq_refl ltac:(discriminate)).
Qed.

Lemma put_concat before h x ws : List.concat (put_before before h x ws) = h ++ List.concat ws.
Proof.
  unfold put_before. destruct x as [|d r]; [destruct h; reflexivity|]. destruct (is_alnum d && _); [|destruct h; reflexivity].
  destruct ws as [|w ws]; cbn [List.concat]; [rewrite app_nil_r; reflexivity|rewrite app_assoc; reflexivity].
Qed.
Lemma split_letters : forall x before, List.concat (split_words before x) = filter is_alnum x.
Proof.
  induction x as [|c r IH]; intros before; [reflexivity|]. rewrite split_cons. cbn [filter]. destruct (is_alnum c); [|apply IH]. rewrite put_concat, IH. reflexivity.
Qed.
Definition word (w : str) : Prop := w <> [] /\ forallb is_alnum w = true.
Lemma split_word : forall x before, Forall word (split_words before x).
Proof.
  induction x as [|c r IH]; intros before; [constructor|]. rewrite split_cons. destruct (is_alnum c) eqn:Ec; [|apply IH].
  assert (Hc : word [c]) by (split; [discriminate|cbn; rewrite Ec; reflexivity]).
  unfold put_before. specialize (IH (c :: before)). destruct r as [|d r']; [constructor; [exact Hc|exact IH]|].
  destruct (is_alnum d && _); [|constructor; [exact Hc|exact IH]]. destruct (split_words (c :: before) (d :: r')) as [|w ws]; [constructor; [exact Hc|constructor]|].
  inversion IH as [|? ? [H1 H2] H3]; subst. constructor; [|exact H3]. split; [discriminate|]. cbn [app forallb]. rewrite Ec. exact H2.
Qed.
Lemma words_word x : Forall word (words x). Proof. apply split_word. Qed.

(** The words of words separated by underscores. *)
Definition separate (x : str) : Prop := head_is is_alnum x = false.
Definition settled (w : str) : Prop := word w /\ forall before rest, separate before -> separate rest -> solid before w rest.
Lemma split_joined : forall ws before, Forall settled ws -> separate before -> split_words before (join (txt "_") ws) = ws.
Proof.
  induction ws as [|w ws IH]; intros before H Hb; [reflexivity|]. inversion H as [|? ? [[Hn Ha] Hs] Hr]; subst.
  destruct ws as [|v ws].
  - cbn [join]. rewrite <- (app_nil_r w) at 1. rewrite split_solid; [|exact Hn|exact Ha|apply Hs; [exact Hb|reflexivity]]. cbn [split_words put_before]. destruct w; [congruence|reflexivity].
  - change (join (txt "_") (w :: v :: ws)) with (w ++ (95%N :: join (txt "_") (v :: ws))).
    rewrite split_solid; [|exact Hn|exact Ha|apply Hs; [exact Hb|reflexivity]].
    rewrite put_end; [|exact Hn|reflexivity]. rewrite split_cons. change (is_alnum 95%N) with false. cbv iota. rewrite IH; [reflexivity|exact Hr|reflexivity].
Qed.

Lemma inside before p : p <> [] -> forallb is_alnum p = true -> match rev p ++ before with [] => true | b :: _ => negb (is_alnum b) end = false.
Proof.
  intros Hn Ha. destruct (rev p) as [|b q] eqn:E; [exfalso; exact (rev_ne p Hn E)|]. cbn [app]. rewrite forallb_forall in Ha. rewrite (Ha b); [reflexivity|].
  apply in_rev. rewrite E. left. reflexivity.
Qed.
Lemma begun before p d r : p <> [] -> forallb is_alnum p = true -> begins_word (rev p ++ before) d r =
  is_upper d && match last_case (rev p ++ before) with None => false | Some false => true | Some true => head_is is_lower r end.
Proof. intros Hn Ha. unfold begins_word. rewrite inside by assumption. reflexivity. Qed.

Lemma quiet_solid before w rest : forallb is_alnum w = true -> forallb (fun c => negb (is_upper c)) (tl w) = true -> solid before w rest.
Proof.
  intros Ha Hq p d s E Hp. destruct p as [|c p]; [congruence|]. subst w. cbn [app tl] in Hq. rewrite forallb_app in Hq, Ha. apply andb_prop in Hq as [_ Hq]. apply andb_prop in Ha as [Ha _].
  rewrite begun; [|discriminate|exact Ha]. cbn [forallb] in Hq. apply andb_prop in Hq as [Hq _]. destruct (is_upper d); [discriminate|reflexivity].
Qed.
Lemma small_alnum w : forallb is_alnum (small w) = forallb is_alnum w.
Proof. unfold small. induction w as [|c w IH]; [reflexivity|]. cbn [map forallb]. rewrite low_alnum, IH. reflexivity. Qed.
Lemma small_quiet w : forallb (fun c => negb (is_upper c)) (small w) = true.
Proof. unfold small. induction w as [|c w IH]; [reflexivity|]. cbn [map forallb]. rewrite low_upper, IH. reflexivity. Qed.
Lemma quiet_tl w : forallb (fun c => negb (is_upper c)) w = true -> forallb (fun c => negb (is_upper c)) (tl w) = true.
Proof. destruct w as [|c w]; [auto|]. cbn [forallb tl]. intros H. apply andb_prop in H as [_ H]. exact H. Qed.
Lemma small_word w : word w -> word (small w).
Proof. intros [Hn Ha]. split; [destruct w; [congruence|discriminate]|]. rewrite small_alnum. exact Ha. Qed.
Lemma small_settled w : word w -> settled (small w).
Proof. intros H. split; [apply small_word, H|]. intros before rest _ _. apply quiet_solid; [apply (small_word w H)|]. apply quiet_tl, small_quiet. Qed.
Lemma words_snake x : words (heck_snake x) = map small (words x).
Proof.
  unfold heck_snake. rewrite heck_words. unfold words at 1. apply split_joined; [|reflexivity]. apply Forall_map. eapply Forall_impl; [|apply words_word]. intros w. apply small_settled.
Qed.

Lemma small_small w : small (small w) = small w.
Proof. unfold small. rewrite map_map. apply map_ext. exact low_low. Qed.
Lemma capital_small w : capital (small w) = capital w.
Proof. destruct w as [|c w]; [reflexivity|]. cbn [small map capital]. rewrite up_low. f_equal. exact (small_small w). Qed.
Lemma small_capital w : small (capital w) = small w.
Proof. destruct w as [|c w]; [reflexivity|]. cbn [small map capital]. rewrite low_up. f_equal. exact (small_small w). Qed.

Lemma snake_is x : heck_snake x = join (txt "_") (map small (words x)). Proof. unfold heck_snake. rewrite heck_words. reflexivity. Qed.
Lemma pascal_is x : heck_pascal x = List.concat (map capital (words x)).
Proof. unfold heck_pascal. rewrite heck_words. reflexivity. Qed.
Lemma camel_is x : heck_camel x = List.concat (match words x with [] => [] | w :: r => small w :: map capital r end).
Proof. unfold heck_camel. rewrite heck_words. destruct (words x) as [|w r]; [reflexivity|]. reflexivity. Qed.

Theorem snake_snake x : heck_snake (heck_snake x) = heck_snake x.
Proof. rewrite (snake_is (heck_snake x)), words_snake, map_map, snake_is. f_equal. apply map_ext. exact small_small. Qed.
Theorem pascal_snake x : heck_pascal (heck_snake x) = heck_pascal x.
Proof. rewrite (pascal_is (heck_snake x)), words_snake, map_map, pascal_is. f_equal. apply map_ext. exact capital_small. Qed.
Theorem camel_snake x : heck_camel (heck_snake x) = heck_camel x.
Proof.
  rewrite (camel_is (heck_snake x)), words_snake, camel_is. destruct (words x) as [|w r]; [reflexivity|]. cbn [map]. rewrite small_small, map_map. f_equal. f_equal. apply map_ext. exact capital_small.
Qed.

(** ** Words without separators *)
(** As [capital] and [small] write them: no capital but the first character. *)
Definition written (w : str) : Prop := word w /\ forallb (fun c => negb (is_upper c)) (tl w) = true.
Lemma capital_written w : word w -> written (capital w).
Proof.
  intros [Hn Ha]. destruct w as [|c w]; [congruence|]. cbn [forallb] in Ha. apply andb_prop in Ha as [Hc Ha]. split; [split; [discriminate|]|apply small_quiet].
  cbn [capital forallb]. rewrite up_alnum, Hc, small_alnum. exact Ha.
Qed.
Lemma small_written w : word w -> written (small w).
Proof. intros H. split; [apply small_word, H|apply quiet_tl, small_quiet]. Qed.
Fixpoint parted (before : str) (ws : list str) : bool :=
  match ws with
  | [] => true
  | u :: r => match r with (c :: t) :: r' => begins_word (rev u ++ before) c (t ++ List.concat r') | _ => true end && parted (rev u ++ before) r
  end.
Lemma split_parted : forall ws before, Forall written ws -> (split_words before (List.concat ws) = ws <-> parted before ws = true).
Proof.
  induction ws as [|u ws IH]; intros before H; [split; reflexivity|]. inversion H as [|? ? [[Hn Ha] Hq] Hr]; subst. cbn [List.concat parted].
  rewrite split_solid; [|exact Hn|exact Ha|apply quiet_solid; assumption]. destruct ws as [|v ws].
  - cbn. destruct u; [congruence|]. split; reflexivity.
  - inversion Hr as [|? ? [[Hvn Hva] _] _]; subst. destruct v as [|c t]; [congruence|]. cbn [List.concat app]. cbn [forallb] in Hva. apply andb_prop in Hva as [Hc _].
    unfold put_before. rewrite Hc. cbn [andb]. specialize (IH (rev u ++ before) Hr). cbn [List.concat app] in IH.
    destruct (begins_word (rev u ++ before) c (t ++ List.concat ws)); cbn [negb andb].
    + destruct u as [|a u]; [congruence|]. rewrite <- IH. split; [intros E; injection E as E; exact E|intros ->; reflexivity].
    + split; [|discriminate]. destruct (split_starts (rev u ++ before) c (t ++ List.concat ws) Hc) as (w & rest & ->). intros E. injection E as E _. exfalso.
      apply (f_equal (@List.length chr)) in E. rewrite app_length in E. cbn [List.length] in E. lia.
Qed.

Lemma last_quiet : forall p before, forallb is_alnum p = true -> forallb (fun c => negb (is_upper c)) p = true ->
  last_case (rev p ++ before) = if existsb is_lower p then Some false else last_case before.
Proof.
  induction p as [|c p IH]; intros before Ha Hq; [reflexivity|]. cbn [forallb] in Ha, Hq. apply andb_prop in Ha as [Hc Ha]. apply andb_prop in Hq as [Hu Hq].
  cbn [rev]. rewrite <- app_assoc. cbn [app]. rewrite IH by assumption. cbn [existsb last_case]. destruct (is_lower c) eqn:El; cbn [orb]; [destruct (existsb is_lower p); reflexivity|].
  destruct (is_upper c) eqn:Eu; [discriminate|]. rewrite (alnum_digit c Hc El Eu). reflexivity.
Qed.
Lemma quiet_upper p : forallb (fun c => negb (is_upper c)) p = true -> existsb is_upper p = false.
Proof. induction p as [|c p IH]; [reflexivity|]. cbn [forallb existsb]. intros H. apply andb_prop in H as [Hc H]. rewrite (IH H). destruct (is_upper c); [discriminate|reflexivity]. Qed.
Lemma last_written u before : written u -> last_case (rev u ++ before) =
  if existsb is_lower u then Some false else if existsb is_upper u then Some true else last_case before.
Proof.
  intros [[Hn Ha] Hq]. destruct u as [|c t]; [congruence|]. cbn [forallb] in Ha. apply andb_prop in Ha as [Hc Ha]. cbn [tl] in Hq.
  cbn [rev]. rewrite <- app_assoc. cbn [app]. rewrite last_quiet by assumption. cbn [existsb last_case]. rewrite (quiet_upper t Hq), orb_false_r.
  destruct (is_lower c) eqn:El; cbn [orb]; [destruct (existsb is_lower t); reflexivity|]. destruct (existsb is_lower t); [reflexivity|].
  destruct (is_upper c) eqn:Eu; [reflexivity|]. rewrite (alnum_digit c Hc El Eu). reflexivity.
Qed.
Lemma parted_apart : forall ws before, Forall written ws -> Forall (fun w => head_is is_lower w = false) (tl ws) ->
  before = [] \/ head_is is_upper (hd [] ws) = true -> parted before ws = all_apart ws.
Proof.
  induction ws as [|u ws IH]; intros before H Hl Hb; [reflexivity|]. inversion H as [|? ? Hu Hr]; subst. cbn [parted all_apart tl] in *. destruct ws as [|v ws]; [reflexivity|].
  inversion Hr as [|? ? [[Hvn Hva] Hvq] Hr']; subst. destruct v as [|c t]; [congruence|]. inversion Hl as [|? ? _ Hl']; subst. unfold apart at 1.
  destruct Hu as [[Hn Ha] Hq]. rewrite begun by assumption. rewrite (last_written u before (conj (conj Hn Ha) Hq)).
  destruct (is_upper c) eqn:Eu; [|reflexivity]. cbn [andb].
  assert (Ht : head_is is_lower (t ++ List.concat ws) = match t with d :: _ => is_lower d | [] => false end).
  { destruct t as [|d t]; [|reflexivity]. cbn [app]. destruct ws as [|w ws]; [reflexivity|]. inversion Hl' as [|? ? Hw _]; subst. inversion Hr' as [|? ? [[Hwn _] _] _]; subst.
    destruct w as [|e w]; [congruence|]. exact Hw. }
  rewrite Ht. f_equal.
  - destruct (existsb is_lower u); [reflexivity|]. cbn [orb]. destruct (existsb is_upper u) eqn:Euu; [reflexivity|]. cbn [andb].
    destruct Hb as [-> |Hb]; [reflexivity|]. cbn [hd] in Hb. destruct u as [|a u]; [discriminate|]. cbn [head_is existsb] in *. rewrite Hb in Euu. discriminate.
  - apply IH; [exact Hr|exact Hl'|right; exact Eu].
Qed.
Lemma capital_head w : head_is is_lower (capital w) = false. Proof. destruct w as [|c w]; [reflexivity|]. apply up_lower. Qed.
Lemma written_words x : Forall written (pascal_words x) /\ Forall written (camel_words x) /\
  Forall (fun w => head_is is_lower w = false) (tl (pascal_words x)) /\ Forall (fun w => head_is is_lower w = false) (tl (camel_words x)).
Proof.
  unfold pascal_words, camel_words. pose proof (words_word x) as H. assert (Hc : forall l, Forall word l -> Forall written (map capital l)).
  { intros l Hl. apply Forall_map. eapply Forall_impl; [|exact Hl]. exact capital_written. }
  assert (Hd : forall l, Forall (fun w => head_is is_lower w = false) (map capital l)) by (intros l; apply Forall_map, Forall_forall; intros w _; apply capital_head).
  split; [exact (Hc _ H)|]. inversion H as [|w l Hw Hl]; [repeat split; constructor|]. split; [constructor; [apply small_written, Hw|exact (Hc _ Hl)]|]. split; apply Hd.
Qed.
Theorem pascal_apart x : words (heck_pascal x) = pascal_words x <-> all_apart (pascal_words x) = true.
Proof.
  rewrite pascal_is. fold (pascal_words x). destruct (written_words x) as (H & _ & Hl & _). unfold words at 1. rewrite (split_parted _ [] H), (parted_apart _ [] H Hl (or_introl eq_refl)). reflexivity.
Qed.
Theorem camel_apart x : words (heck_camel x) = camel_words x <-> all_apart (camel_words x) = true.
Proof.
  rewrite camel_is. fold (camel_words x). destruct (written_words x) as (_ & H & _ & Hl). unfold words at 1. rewrite (split_parted _ [] H), (parted_apart _ [] H Hl (or_introl eq_refl)). reflexivity.
Qed.

Lemma snake_words_same x y : heck_snake x = heck_snake y <-> map small (words x) = map small (words y).
Proof. split; [intros E; rewrite <- !words_snake, E; reflexivity|intros E; rewrite !snake_is, E; reflexivity]. Qed.
Lemma concat_same : forall (a b : list str), map (@List.length chr) a = map (@List.length chr) b -> List.concat a = List.concat b -> a = b.
Proof.
  induction a as [|u a IH]; intros [|v b] Hl Hc; try discriminate; [reflexivity|]. cbn [map List.concat] in *. injection Hl as Hl1 Hl2.
  assert (u = v /\ List.concat a = List.concat b) as [-> E].
  { clear - Hl1 Hc. revert v Hl1 Hc. induction u as [|c u IH]; intros [|d v] Hl Hc; try discriminate; [auto|]. cbn [app List.length] in *. injection Hl as Hl. injection Hc as -> Hc. destruct (IH v Hl Hc) as [-> E]. auto. }
  rewrite (IH b Hl2 E). reflexivity.
Qed.
Lemma written_filter ws : Forall written ws -> filter is_alnum (List.concat ws) = List.concat ws.
Proof.
  intros H. assert (Ha : forallb is_alnum (List.concat ws) = true).
  { induction H as [|w ws [[_ Hw] _] _ IH]; [reflexivity|]. cbn [List.concat]. rewrite forallb_app, Hw, IH. reflexivity. }
  clear H. induction (List.concat ws) as [|c l IH]; [reflexivity|]. cbn [forallb filter] in *. apply andb_prop in Ha as [-> Ha]. rewrite (IH Ha). reflexivity.
Qed.
Lemma small_length ws : map (@List.length chr) (map small ws) = map (@List.length chr) ws.
Proof. rewrite map_map. apply map_ext. intros w. apply map_length. Qed.
Lemma same_words ws x y : Forall written ws -> y = List.concat ws -> map small ws = map small (words x) ->
  (heck_snake y = heck_snake x <-> words y = ws).
Proof.
  intros H -> Hs. rewrite snake_words_same. split; [|intros ->; exact Hs]. intros E. apply concat_same; [|unfold words; rewrite split_letters; apply written_filter; exact H].
  rewrite <- small_length, E, <- Hs. apply small_length.
Qed.
Lemma small_pascal x : map small (pascal_words x) = map small (words x).
Proof. unfold pascal_words. rewrite map_map. apply map_ext. exact small_capital. Qed.
Lemma small_camel x : map small (camel_words x) = map small (words x).
Proof. unfold camel_words. destruct (words x) as [|w r]; [reflexivity|]. cbn [map]. rewrite small_small, map_map. f_equal. apply map_ext. exact small_capital. Qed.
Theorem snake_pascal x : heck_snake (heck_pascal x) = heck_snake x <-> all_apart (pascal_words x) = true.
Proof. rewrite <- pascal_apart. apply same_words; [apply written_words|apply pascal_is|apply small_pascal]. Qed.
Theorem snake_camel x : heck_snake (heck_camel x) = heck_snake x <-> all_apart (camel_words x) = true.
Proof. rewrite <- camel_apart. apply same_words; [apply written_words|apply camel_is|apply small_camel]. Qed.

(** What is determined by the words in small letters. *)
Lemma snake_decides x y : heck_snake x = heck_snake y -> heck_pascal x = heck_pascal y /\ heck_camel x = heck_camel y.
Proof. intros E. rewrite <- (pascal_snake x), <- (camel_snake x), E, pascal_snake, camel_snake. split; reflexivity. Qed.

(** ** Letters *)
Lemma small_concat ws : map low (List.concat ws) = List.concat (map small ws).
Proof. apply concat_map. Qed.
Lemma joined_letters ws : Forall word ws -> filter is_alnum (join (txt "_") ws) = List.concat ws.
Proof.
  assert (Hw : forall w, forallb is_alnum w = true -> filter is_alnum w = w).
  { induction w as [|c w IH]; [reflexivity|]. cbn [forallb filter]. intros H. apply andb_prop in H as [-> H]. rewrite (IH H). reflexivity. }
  induction 1 as [|w ws [Hn Ha] Hr IH]; [reflexivity|]. destruct ws as [|v ws]; [cbn [join List.concat]; rewrite app_nil_r; apply Hw, Ha|].
  change (join (txt "_") (w :: v :: ws)) with (w ++ 95%N :: join (txt "_") (v :: ws)). rewrite filter_app, (Hw w Ha). cbn [filter]. change (is_alnum 95%N) with false. cbv iota. rewrite IH. reflexivity.
Qed.
Lemma smalls_word x : Forall word (map small (words x)).
Proof. apply Forall_map. eapply Forall_impl; [|apply words_word]. exact small_word. Qed.
Theorem letters_kept x :
  filter is_alnum (heck_snake x) = map low (filter is_alnum x) /\
  map low (heck_pascal x) = map low (filter is_alnum x) /\ map low (heck_camel x) = map low (filter is_alnum x).
Proof.
  assert (E : map low (filter is_alnum x) = List.concat (map small (words x))) by (rewrite <- (split_letters x []), small_concat; reflexivity).
  rewrite E. split; [rewrite snake_is; apply joined_letters, smalls_word|].
  split; [rewrite pascal_is, small_concat; fold (pascal_words x); rewrite small_pascal; reflexivity|rewrite <- small_camel, <- small_concat; f_equal; apply camel_is].
Qed.

(** ** Identifiers *)
Lemma words_first : forall x before, first_alnum x = match split_words before x with (c :: _) :: _ => Some c | _ => None end.
Proof.
  unfold first_alnum. induction x as [|c r IH]; intros before; [reflexivity|]. cbn [find]. destruct (is_alnum c) eqn:E.
  - destruct (split_starts before c r E) as (w & ws & ->). reflexivity.
  - rewrite split_cons, E. apply IH.
Qed.
Definition name_ok (x : str) : bool := match x with [] => false | c :: r => ident_start c && forallb ident_continue r end.
Lemma alnum_continue w : forallb is_alnum w = true -> forallb ident_continue w = true.
Proof. induction w as [|c w IH]; [reflexivity|]. cbn [forallb]. intros H. apply andb_prop in H as [Hc H]. unfold ident_continue at 1. rewrite Hc, (IH H). reflexivity. Qed.
Lemma joined_continue ws : Forall word ws -> forallb ident_continue (join (txt "_") ws) = true.
Proof.
  induction 1 as [|w ws [Hn Ha] Hr IH]; [reflexivity|]. destruct ws as [|v ws]; [cbn [join]; apply alnum_continue, Ha|].
  change (join (txt "_") (w :: v :: ws)) with (w ++ 95%N :: join (txt "_") (v :: ws)). rewrite forallb_app, (alnum_continue w Ha). cbn [forallb]. rewrite IH. reflexivity.
Qed.
Lemma concat_continue ws : Forall written ws -> forallb ident_continue (List.concat ws) = true.
Proof. induction 1 as [|w ws [[Hn Ha] _] Hr IH]; [reflexivity|]. cbn [List.concat]. rewrite forallb_app, (alnum_continue w Ha), IH. reflexivity. Qed.
Lemma name_first x c r : x = c :: r -> forallb ident_continue x = true -> is_alnum c = true -> name_ok x = is_alpha c.
Proof.
  intros -> H Hc. cbn [name_ok forallb] in *. apply andb_prop in H as [_ ->]. rewrite andb_true_r. clear -Hc. chars.
Qed.
Lemma alpha_low c : is_alpha (low c) = is_alpha c. Proof. chars. Qed.
Lemma alpha_up c : is_alpha (up c) = is_alpha c. Proof. chars. Qed.
Theorem names_kept x :
  let ok := match first_alnum x with Some c => is_alpha c | None => false end in
  name_ok (heck_snake x) = ok /\ name_ok (heck_pascal x) = ok /\ name_ok (heck_camel x) = ok.
Proof.
  cbv zeta. rewrite (words_first x []). fold (words x). rewrite snake_is, pascal_is, camel_is.
  pose proof (joined_continue _ (smalls_word x)) as H1. destruct (written_words x) as (Hp & Hc & _). pose proof (concat_continue _ Hp) as H2. pose proof (concat_continue _ Hc) as H3.
  unfold pascal_words, camel_words in *. pose proof (words_word x) as Hw. destruct (words x) as [|w ws]; [repeat split|]. inversion Hw as [|? ? [Hn Ha] _]; subst.
  destruct w as [|c w]; [congruence|]. cbn [forallb] in Ha. apply andb_prop in Ha as [Ha _].
  assert (exists r, join (txt "_") (map small ((c :: w) :: ws)) = low c :: r) as [r Er].
  { cbn [map small]. destruct (map small ws) as [|v vs]; [exists (map low w); reflexivity|]. eexists. reflexivity. }
  assert (Hl : is_alnum (low c) = true) by (rewrite low_alnum; exact Ha). assert (Hu : is_alnum (up c) = true) by (rewrite up_alnum; exact Ha).
  split; [exact (eq_trans (name_first _ _ _ Er H1 Hl) (alpha_low c))|]. split; [exact (eq_trans (name_first _ _ _ eq_refl H2 Hu) (alpha_up c))|exact (eq_trans (name_first _ _ _ eq_refl H3 Hl) (alpha_low c))].
Qed.
Lemma cased_names f x : (forall c, is_alnum (f c) = is_alnum c) -> (forall c, is_alpha (f c) = is_alpha c) -> (forall c, N.eqb (f c) 95 = N.eqb c 95) -> name_ok (map f x) = name_ok x.
Proof.
  intros H1 H2 H3. destruct x as [|c r]; [reflexivity|]. cbn [map name_ok]. unfold ident_start. rewrite H2, H3. f_equal.
  induction r as [|d r IH]; [reflexivity|]. cbn [map forallb]. rewrite IH. unfold ident_continue. rewrite H1, H3. reflexivity.
Qed.
Lemma upper_names x : name_ok (map up x) = name_ok x.
Proof. apply cased_names; [exact up_alnum|exact alpha_up|intros c; chars]. Qed.
Lemma lower_names x : name_ok (map low x) = name_ok x.
Proof. apply cased_names; [exact low_alnum|exact alpha_low|intros c; chars]. Qed.

(** ** Capitals *)
Lemma loud_solid before w rest : separate before -> separate rest -> word w -> forallb (fun c => negb (is_lower c)) w = true -> solid before w rest.
Proof.
  intros Hb Hr [_ Ha] Hl p d s E Hp. subst w. rewrite forallb_app in Ha, Hl. apply andb_prop in Ha as [Ha _]. apply andb_prop in Hl as [Hl Hs]. cbn [forallb] in Hs. apply andb_prop in Hs as [_ Hs].
  rewrite begun by assumption. destruct (is_upper d); [|reflexivity]. cbn [andb].
  assert (Hc : last_case (rev p ++ before) <> Some false).
  { assert (Hb' : last_case before <> Some false).
    { unfold separate in Hb. destruct before as [|b before]; [discriminate|]. cbn [head_is last_case] in *. destruct (alnum_cases b Hb) as (-> & -> & ->). discriminate. }
    clear - Ha Hl Hb'. revert before Hb'. induction p as [|c p IH]; intros before Hb'; [exact Hb'|]. cbn [forallb] in *. apply andb_prop in Ha as [Hc Ha]. apply andb_prop in Hl as [Hcl Hl].
    cbn [rev]. rewrite <- app_assoc. cbn [app]. apply IH; [exact Hl|exact Ha|]. cbn [last_case]. destruct (is_lower c); [discriminate|]. destruct (is_upper c); [discriminate|]. destruct (is_digit c); [exact Hb'|discriminate]. }
  assert (Hh : head_is is_lower (s ++ rest) = false).
  { destruct s as [|e s]; [|cbn [app head_is forallb] in *; apply andb_prop in Hs as [Hs _]; destruct (is_lower e); [discriminate|reflexivity]].
    cbn [app]. unfold separate in Hr. destruct rest as [|e rest]; [reflexivity|]. cbn [head_is] in *. destruct (is_lower e) eqn:El; [|reflexivity]. rewrite (lower_alnum e El) in Hr. discriminate. }
  rewrite Hh. destruct (last_case (rev p ++ before)) as [[]|]; [reflexivity|congruence|reflexivity].
Qed.
Definition loud (w : str) : str := map up w.
Lemma loud_word w : word w -> word (loud w).
Proof.
  intros [Hn Ha]. split; [destruct w; [congruence|discriminate]|]. clear Hn. unfold loud. induction w as [|c w IH]; [reflexivity|]. cbn [map forallb] in *. apply andb_prop in Ha as [Hc Ha]. rewrite up_alnum, Hc. exact (IH Ha).
Qed.
Lemma loud_settled w : word w -> settled (loud w).
Proof.
  intros H. split; [apply loud_word, H|]. intros before rest Hb Hr. apply loud_solid; [exact Hb|exact Hr|apply loud_word, H|]. clear H. unfold loud. induction w as [|c w IH]; [reflexivity|]. cbn [map forallb]. rewrite up_lower. exact IH.
Qed.
Lemma loud_join ws : map up (join (txt "_") ws) = join (txt "_") (map loud ws).
Proof.
  induction ws as [|w ws IH]; [reflexivity|]. destruct ws as [|v ws]; [reflexivity|]. change (join (txt "_") (w :: v :: ws)) with (w ++ 95%N :: join (txt "_") (v :: ws)).
  rewrite map_app. cbn [map]. cbn [map] in IH. rewrite IH. reflexivity.
Qed.
Lemma small_loud w : small (loud w) = small w. Proof. unfold small, loud. rewrite map_map. apply map_ext. exact low_up. Qed.
(** Constants and back. *)
Theorem snake_screaming x : heck_snake (map up (heck_snake x)) = heck_snake x.
Proof.
  rewrite (snake_is x) at 1. rewrite loud_join, map_map. apply snake_words_same. unfold words at 1. rewrite split_joined; [|apply Forall_map; eapply Forall_impl; [|apply words_word]|reflexivity].
  - rewrite map_map. apply map_ext. intros w. rewrite small_loud. apply small_small.
  - intros w Hw. apply loud_settled, small_word, Hw.
Qed.

(** ** The shape of snake case *)
Theorem snake_shape x : snake_shaped (heck_snake x).
Proof.
  exists (map small (words x)). split; [apply snake_is|]. apply Forall_map. eapply Forall_impl; [|apply words_word]. intros w [Hn Ha]. split; [destruct w; [congruence|discriminate]|].
  clear Hn. unfold small. induction w as [|c w IH]; [reflexivity|]. cbn [map forallb] in *. apply andb_prop in Ha as [Hc Ha]. rewrite (IH Ha), andb_true_r. clear - Hc. chars.
Qed.
Theorem shaped_snake x : snake_shaped x -> heck_snake x = x.
Proof.
  intros (ws & -> & H). assert (Hsm : map small ws = ws).
  { clear - H. induction H as [|w ws [_ Hw] _ IH]; [reflexivity|]. cbn [map]. rewrite IH. f_equal. unfold small. induction w as [|c w IHw]; [reflexivity|]. cbn [map forallb] in *. apply andb_prop in Hw as [Hc Hw]. rewrite (IHw Hw). f_equal. clear - Hc. chars. }
  rewrite snake_is. unfold words. rewrite split_joined; [rewrite Hsm; reflexivity| |reflexivity].
  rewrite <- Hsm. apply Forall_map. eapply Forall_impl; [|exact H]. intros w [Hn Hw]. apply small_settled. split; [exact Hn|]. clear Hn. induction w as [|c w IH]; [reflexivity|]. cbn [forallb] in *. apply andb_prop in Hw as [Hc Hw]. rewrite (IH Hw), andb_true_r. clear - Hc. chars.
Qed.
