(** The state machine of [format_string] computes the meaning of the pieces. *)
From Verif Require Import Base Token Types Values FormatString SpecFormat.

Section P.
Context (O : oracles) (lookup : str -> option value).

Notation step := (format_step O lookup).
Notation run := (fold_left step).
Definition vo (x : str) : option str := option_map (shown O) (lookup x).

Lemma join_shown (sep x : str) l : join sep (x :: l) = x ++ flat_map (fun y => sep ++ y) l.
Proof.
  revert x. induction l as [|y l IH]; intros x; [symmetry; apply app_nil_r|].
  cbn [flat_map]. rewrite <- app_assoc, <- (IH y). reflexivity.
Qed.
Lemma format_shown v : format_value O v = shown O v.
Proof. destruct v; try reflexivity. cbn [format_value shown]. destruct (path_segments O ts); [reflexivity|apply join_shown]. Qed.
Notation mean1 := (meaning1 percent (is_whitespace O) vo).

(** Outside of placeholders, with output [out]; [after] tells whether the previous
    character was a percent sign. *)
Definition out_state (st : fstate) (out : str) (after : bool) : Prop :=
  formatted st = out /\ placeholder st = [] /\ placeholder_text st = [] /\
  in_placeholder st = false /\
  match prev_c st with Some p => is_percent p | None => false end = after.

Lemma not_percent c s : no_percent percent (c :: s) -> is_percent c = false /\ no_percent percent s.
Proof.
  unfold no_percent, is_percent. cbn. intros H. split; [apply N.eqb_neq|]; intuition.
Qed.

Lemma run_text s : forall st out a,
  s <> [] -> no_percent percent s -> out_state st out a -> out_state (run s st) (out ++ s) false.
Proof.
  induction s as [|c s IH]; intros st out a Hne Hnp (H1 & H2 & H3 & H4 & H5); [congruence|].
  apply not_percent in Hnp as [Hc Hs]. cbn [fold_left].
  assert (Ho : out_state (step st c) (out ++ [c]) false).
  { unfold format_step. rewrite Hc, H4. unfold out_state; cbn. rewrite H1, H2, H3. auto. }
  destruct s as [|d s]; [exact Ho|].
  replace (out ++ c :: d :: s) with ((out ++ [c]) ++ d :: s) by (rewrite <- app_assoc; reflexivity).
  eapply IH; [discriminate|exact Hs|exact Ho].
Qed.

(** Inside a placeholder whose text so far is [%t]. *)
Definition in_state (st : fstate) (out t : str) : Prop :=
  formatted st = out /\ placeholder st = name_of (is_whitespace O) t /\
  placeholder_text st = percent :: t /\ in_placeholder st = true /\
  match prev_c st with Some p => is_percent p | None => false end
  = match t with [] => true | _ => false end.

Lemma app_cons_match {A} (t : list A) c (B : Type) (x y : B) :
  match t ++ [c] with [] => x | _ => y end = y.
Proof. destruct t; reflexivity. Qed.

Lemma run_inside s : forall st out t,
  no_percent percent s -> in_state st out t -> in_state (run s st) out (t ++ s).
Proof.
  induction s as [|c s IH]; intros st out t Hnp Hi; [rewrite app_nil_r; exact Hi|].
  apply not_percent in Hnp as [Hc Hs]. cbn [fold_left].
  replace (t ++ c :: s) with ((t ++ [c]) ++ s) by (rewrite <- app_assoc; reflexivity).
  apply IH; [exact Hs|]. destruct Hi as (H1 & H2 & H3 & H4 & H5).
  unfold format_step. rewrite Hc, H4. unfold name_of in *.
  destruct (is_whitespace O c) eqn:Ew; unfold in_state, name_of; cbn;
    rewrite filter_app; cbn; rewrite Ew; cbn; rewrite ?app_nil_r, H1, H2, H3, app_cons_match; auto.
Qed.

Lemma open_placeholder st out : out_state st out false -> in_state (step st percent) out [].
Proof.
  intros (H1 & H2 & H3 & H4 & H5). unfold format_step. cbn [is_percent]. change (is_percent percent) with true. cbn iota.
  rewrite H5, H4. unfold in_state; cbn. rewrite H1, H2, H3. auto.
Qed.

Lemma close_placeholder st out t :
  t <> [] -> in_state st out t -> out_state (step st percent)
    (out ++ match vo (name_of (is_whitespace O) t) with Some v => v | None => percent :: t ++ [percent] end) true.
Proof.
  intros Hne (H1 & H2 & H3 & H4 & H5). unfold format_step, vo. change (is_percent percent) with true. cbn iota.
  rewrite H5. destruct t as [|c t]; [congruence|]. rewrite H4, H2.
  destruct (lookup _) as [v|]; unfold out_state; cbn -[format_value shown]; rewrite ?format_shown, H1, ?H3; cbn -[shown]; auto.
Qed.

Lemma run_percents n : forall st out,
  out_state st out true -> out_state (run (repeat percent n) st) (out ++ repeat percent n) true.
Proof.
  induction n as [|n IH]; intros st out Ho; [rewrite app_nil_r; exact Ho|].
  cbn [repeat fold_left].
  replace (out ++ percent :: repeat percent n) with ((out ++ [percent]) ++ repeat percent n)
    by (rewrite <- app_assoc; reflexivity).
  apply IH. destruct Ho as (H1 & H2 & H3 & H4 & H5).
  unfold format_step. change (is_percent percent) with true. cbn iota. rewrite H5.
  unfold out_state; cbn. rewrite H1. auto.
Qed.

Lemma second_percent st out : in_state st out [] -> out_state (step st percent) (out ++ [percent]) true.
Proof.
  intros (H1 & H2 & H3 & H4 & H5). unfold format_step. change (is_percent percent) with true. cbn iota.
  rewrite H5. unfold out_state; cbn. rewrite H1. auto.
Qed.

Lemma run_piece p st out a :
  wf_piece percent p -> is_text p = true \/ a = false -> out_state st out a ->
  out_state (run (render1 percent p) st) (out ++ mean1 p) (negb (is_text p)).
Proof.
  intros Hw Ha Ho. destruct p as [s|t k|n]; cbn [render1 meaning1 is_text negb] in *.
  - destruct Hw. eapply run_text; eauto.
  - destruct Ha as [Ha| ->]; [discriminate|]. destruct Hw as [Hne Hnp].
    cbn [fold_left]. rewrite fold_left_app. cbn [fold_left].
    rewrite app_assoc. apply run_percents. apply close_placeholder; [exact Hne|].
    change t with ([] ++ t) at 2. apply run_inside; [exact Hnp|]. apply open_placeholder; exact Ho.
  - destruct Ha as [Ha| ->]; [discriminate|].
    cbn [repeat fold_left].
    change (percent :: repeat percent n) with ([percent] ++ repeat percent n). rewrite app_assoc.
    apply run_percents. apply second_percent. apply open_placeholder. exact Ho.
Qed.

Definition finish (st : fstate) : str :=
  if in_placeholder st then formatted st ++ placeholder_text st else formatted st.

Lemma run_pieces ps tail : forall st out a,
  Forall (wf_piece percent) ps -> separated ps tail ->
  match tail with Some t => no_percent percent t | None => True end ->
  match ps with [] => tail = None \/ a = false | p :: _ => is_text p = true \/ a = false end ->
  out_state st out a ->
  finish (run (render percent ps tail) st) = out ++ meaning percent (is_whitespace O) vo ps tail.
Proof.
  induction ps as [|p ps IH]; intros st out a Hw Hs Ht Ha Ho; unfold render, meaning; cbn [map concat].
  - rewrite !app_nil_l. destruct tail as [t|].
    + destruct Ha as [Ha| ->]; [discriminate|]. cbn [fold_left].
      assert (Hi : in_state (run t (step st percent)) out ([] ++ t))
        by (apply run_inside; [exact Ht|apply open_placeholder; exact Ho]).
      destruct Hi as (H1 & H2 & H3 & H4 & H5). unfold finish. rewrite H4, H1, H3. reflexivity.
    + cbn. destruct Ho as (H1 & H2 & H3 & H4 & H5). unfold finish. rewrite H4, H1, app_nil_r. reflexivity.
  - inversion Hw as [|? ? Hp Hps]; subst. rewrite <- !app_assoc, fold_left_app.
    pose proof (run_piece p st out a Hp Ha Ho) as Ho'.
    cbn [separated] in Hs. destruct Hs as [Hn Hs].
    rewrite app_assoc. fold (render percent ps tail).
    change (concat (map mean1 ps) ++ match tail with Some t => percent :: t | None => [] end)
      with (meaning percent (is_whitespace O) vo ps tail).
    eapply IH; [exact Hps|exact Hs|exact Ht| |exact Ho'].
    destruct ps as [|q ps']; destruct Hn as [Hn|Hn]; auto; rewrite Hn; auto.
Qed.

Theorem format_meaning ps tail :
  wf percent ps tail ->
  format_string O lookup (render percent ps tail) = meaning percent (is_whitespace O) vo ps tail.
Proof.
  intros (Hw & Hs & Ht). change (meaning percent (is_whitespace O) vo ps tail)
    with ([] ++ meaning percent (is_whitespace O) vo ps tail).
  unfold format_string. cbn zeta.
  eapply (run_pieces ps tail fstart [] false Hw Hs Ht).
  - destruct ps; auto.
  - repeat split.
Qed.
End P.

(** Every string is the rendering of well-formed pieces. *)
Lemma split_percent (s : str) :
  exists t r, s = t ++ r /\ no_percent percent t /\ (r = [] \/ exists r', r = percent :: r').
Proof.
  induction s as [|c s (t & r & -> & Ht & Hr)].
  - exists [], []. cbn. unfold no_percent. cbn. auto.
  - destruct (N.eq_dec c percent) as [->|Hc].
    + exists [], (percent :: t ++ r). split; [reflexivity|]. split; [unfold no_percent; cbn; auto|eauto].
    + exists (c :: t), r. split; [reflexivity|]. split; [|exact Hr].
      unfold no_percent in *. cbn. intros [H|H]; [congruence|auto].
Qed.

Lemma take_percents (s : str) :
  exists n r, s = repeat percent n ++ r /\ (r = [] \/ exists c r', r = c :: r' /\ c <> percent).
Proof.
  induction s as [|c s (n & r & -> & Hr)].
  - exists 0, []. auto.
  - destruct (N.eq_dec c percent) as [->|Hc].
    + exists (S n), r. auto.
    + exists 0, (c :: repeat percent n ++ r). split; [reflexivity|]. right. eauto.
Qed.

Definition after_percents (s : str) (ps : list piece) : Prop :=
  (exists c r, s = c :: r /\ c <> percent) -> match ps with p :: _ => is_text p = true | [] => False end.

Lemma every_string_has_pieces_aux n : forall s, length s <= n ->
  (exists ps tail, s = render percent ps tail /\ wf percent ps tail) /\
  (** when the string does not start with a percent sign, the first piece is text *)
  ((s = [] \/ exists c r, s = c :: r /\ c <> percent) ->
   exists ps tail, s = render percent ps tail /\ wf percent ps tail /\
     match ps with p :: _ => is_text p = true | [] => tail = None end).
Proof.
  induction n as [|n IH]; intros s Hl.
  - destruct s; cbn in Hl; [|lia].
    split; [|intros _]; exists [], None; repeat split; constructor.
  - assert (Htext : (s = [] \/ exists c r, s = c :: r /\ c <> percent) ->
      exists ps tail, s = render percent ps tail /\ wf percent ps tail /\
        match ps with p :: _ => is_text p = true | [] => tail = None end).
    { intros Hs. destruct (split_percent s) as (t & r & Hsr & Ht & Hr).
      destruct s as [|c0 s0]; [exists [], None; repeat split; constructor|].
      assert (Hne : t <> []).
      { intros ->. cbn in Hsr. destruct Hs as [Hs|(c & r0 & Hc & Hnp)]; [discriminate|].
        injection Hc as -> ->. destruct Hr as [->|(r' & ->)]; [discriminate|congruence]. }
      assert (Hlr : length r <= n).
      { apply (f_equal (@length _)) in Hsr. rewrite app_length in Hsr. destruct t; [congruence|]. cbn in *. lia. }
      destruct (IH r Hlr) as ((ps & tail & -> & (Hw & Hsep & Htl)) & _).
      exists (PText t :: ps), tail. split; [|split; [|reflexivity]].
      - rewrite Hsr. unfold render. cbn [map concat render1]. rewrite <- app_assoc. reflexivity.
      - split; [constructor; [split; assumption|exact Hw]|]. split; [|exact Htl].
        cbn [separated]. split; [|exact Hsep]. destruct ps; left; reflexivity. }
    split; [|exact Htext].
    destruct s as [|c s]; [exists [], None; repeat split; constructor|].
    destruct (N.eq_dec c percent) as [->|Hc].
    2:{ destruct Htext as (ps & tail & H1 & H2 & _); [right; eauto|eauto]. }
    destruct s as [|d s]; [exists [], (Some []); repeat split; [constructor|unfold no_percent; cbn; auto]|].
    destruct (N.eq_dec d percent) as [->|Hd].
    + (* a run of percent signs *)
      destruct (take_percents s) as (k & r & -> & Hr).
      assert (Hlr : length r <= n).
      { cbn in Hl. rewrite app_length in Hl. lia. }
      destruct (IH r Hlr) as (_ & Hex).
      destruct Hex as (ps & tail & -> & (Hw & Hsep & Htl) & Hfirst); [exact Hr|].
      exists (PPercents k :: ps), tail. split.
      * unfold render. cbn [map concat render1 repeat]. cbn [app]. rewrite <- app_assoc. reflexivity.
      * split; [constructor; [exact I|exact Hw]|]. split; [|exact Htl].
        cbn [separated]. split; [|exact Hsep]. destruct ps; right; exact Hfirst.
    + (* a placeholder, perhaps unterminated *)
      destruct (split_percent (d :: s)) as (t & r & Hsr & Ht & Hr).
      assert (Hne : t <> []).
      { intros ->. cbn in Hsr. destruct Hr as [->|(r' & ->)]; [discriminate|congruence]. }
      destruct Hr as [->|(r' & ->)].
      * exists [], (Some t). rewrite app_nil_r in Hsr. rewrite Hsr. split; [reflexivity|].
        split; [constructor|]. split; [exact I|exact Ht].
      * destruct (take_percents r') as (k & r & -> & Hr).
        assert (Hlr : length r <= n).
        { apply (f_equal (@length _)) in Hsr. rewrite app_length in Hsr. cbn in *.
          rewrite app_length in Hsr. lia. }
        destruct (IH r Hlr) as (_ & Hex).
        destruct Hex as (ps & tail & -> & (Hw & Hsep & Htl) & Hfirst); [exact Hr|].
        exists (PHole t k :: ps), tail. split.
        -- rewrite Hsr. unfold render. cbn [map concat render1].
           cbn [app]. f_equal. repeat (rewrite <- !app_assoc; cbn [app]). reflexivity.
        -- split; [constructor; [split; assumption|exact Hw]|]. split; [|exact Htl].
           cbn [separated]. split; [|exact Hsep]. destruct ps; right; exact Hfirst.
Qed.

Theorem every_string_has_pieces s : exists ps tail, s = render percent ps tail /\ wf percent ps tail.
Proof. destruct (every_string_has_pieces_aux (length s) s (le_n _)) as [H _]. exact H. Qed.

(** ** Consequences *)
Section C.
Context (O : oracles) (lookup : str -> option value).

Lemma format_no_percent s : ~ In percent s -> format_string O lookup s = s.
Proof.
  intros H. destruct s as [|c s]; [reflexivity|].
  pose proof (format_meaning O lookup [PText (c :: s)] None) as E.
  unfold render, meaning in E. cbn in E. rewrite !app_nil_r in E. apply E.
  split; [constructor; [split; [discriminate|exact H]|constructor]|]. cbn. auto.
Qed.

Lemma format_one_percent s t : ~ In percent s -> ~ In percent t ->
  format_string O lookup (s ++ percent :: t) = s ++ percent :: t.
Proof.
  intros Hs Ht. destruct s as [|c s].
  - pose proof (format_meaning O lookup [] (Some t)) as E. apply E. repeat split; [constructor|exact Ht].
  - pose proof (format_meaning O lookup [PText (c :: s)] (Some t)) as E.
    unfold render, meaning in E. cbn [map concat render1 meaning1] in E. rewrite app_nil_r in E. apply E.
    split; [constructor; [split; [discriminate|exact Hs]|constructor]|]. cbn. auto.
Qed.

(** Everything after an unterminated placeholder is kept. *)
Lemma format_unterminated ps t : wf percent ps (Some t) ->
  format_string O lookup (render percent ps (Some t)) =
  format_string O lookup (render percent ps None) ++ percent :: t.
Proof.
  intros H. assert (H' : wf percent ps None).
  { destruct H as (Hw & Hs & _). split; [exact Hw|]. split; [|exact I]. clear Hw.
    induction ps as [|p ps IH]; [exact I|]. cbn [separated] in *. destruct Hs as [Hp Hs].
    split; [|apply IH; exact Hs]. destruct ps; [right; reflexivity|exact Hp]. }
  rewrite !format_meaning by assumption. unfold meaning. rewrite app_nil_r. reflexivity.
Qed.
Lemma format_isolated_run before n after tail :
  wf percent (before ++ PPercents n :: after) tail ->
  format_string O lookup (render percent (before ++ PPercents n :: after) tail) =
  meaning percent (is_whitespace O) (vo O lookup) before None
  ++ repeat percent (S n) ++ meaning percent (is_whitespace O) (vo O lookup) after tail.
Proof.
  intros H. rewrite format_meaning by exact H. unfold meaning.
  rewrite map_app, concat_app. cbn [map concat meaning1]. rewrite app_nil_r, <- !app_assoc. reflexivity.
Qed.
End C.
