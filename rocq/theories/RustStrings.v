(** The Rust instance: a quotation mark ends a name. *)
From Coq Require Import String Lia.
From Verif Require Import Base BaseFacts Token Values Concrete RustLexer RustText RustGrammar RustInstance SpecStrings.
Open Scope list_scope.

(** The characters of names, raw ones included. *)
Definition namish (c : chr) : bool := ident_continue c || N.eqb c 35.

Lemma namish_neq c d : namish c = true -> namish d = false -> N.eqb c d = false.
Proof. intros H K. apply N.eqb_neq. intros ->. congruence. Qed.
Lemma start_continue c : ident_start c = true -> ident_continue c = true.
Proof. unfold ident_start, ident_continue, is_alnum. intros H. apply orb_true_iff in H as [->| ->]; rewrite ?orb_true_r; reflexivity. Qed.

Lemma take_rest f w s : f 34%N = false -> Forall (fun c => namish c = true) w ->
  exists a w', take_while f (w ++ 34%N :: s) = (a, w' ++ 34%N :: s) /\ Forall (fun c => namish c = true) w'.
Proof.
  intros Hf. induction 1 as [|c w Hc Hw IH]; cbn [app take_while].
  - rewrite Hf. exists [], []. split; [reflexivity|]. constructor.
  - destruct IH as (a & w' & E & Hw'). destruct (f c).
    + rewrite E. exists (c :: a), w'. split; [reflexivity|]. exact Hw'.
    + exists [], (c :: w). split; [reflexivity|]. constructor; assumption.
Qed.

(** There is a literal among the tokens. *)
Definition has_literal (l : list lexeme) : Prop := exists l1 t l2, l = map LTok l1 ++ LTok (TLit t) :: l2.
Lemma has_cons t l : has_literal l -> has_literal (LTok t :: l).
Proof. intros (l1 & k & l2 & ->). exists (t :: l1), k, l2. reflexivity. Qed.
Lemma strip_namish p w s : strip p (w ++ 34%N :: s) <> None -> (forall c, In c p -> c <> 34%N) -> Forall (fun c => namish c = true) w ->
  exists w', strip p (w ++ 34%N :: s) = Some (w' ++ 34%N :: s) /\ Forall (fun c => namish c = true) w'.
Proof.
  revert w. induction p as [|a p IH]; intros w H Hp Hw; cbn [strip] in *.
  - exists w. split; [reflexivity|]. exact Hw.
  - destruct w as [|c w]; cbn [app] in *.
    + destruct (N.eqb_spec a 34); [destruct (Hp a (or_introl eq_refl)); assumption|]. congruence.
    + inversion Hw; subst. destruct (N.eqb a c); [|congruence]. destruct (IH w H (fun d Hd => Hp d (or_intror Hd)) ltac:(assumption)) as (w' & E & Hw').
      exists w'. split; [exact E|]. exact Hw'.
Qed.
Lemma strip_neq a p c x : N.eqb a c = false -> strip (a :: p) (c :: x) = None.
Proof. intros H. cbn [strip]. rewrite H. reflexivity. Qed.
Lemma hash_operator x : find_operator operators (35%N :: x) = None.
Proof. reflexivity. Qed.

(** One step at the head of names followed by a quotation mark. *)
Lemma next_namish w s l r : Forall (fun c => namish c = true) w -> next (w ++ 34%N :: s) = Some (l, r) ->
  (exists t k, l = LTok (TLit t) :: k) \/
  (exists t w', l = [LTok t] /\ r = w' ++ 34%N :: s /\ Forall (fun c => namish c = true) w').
Proof.
  intros Hw H. destruct w as [|c w]; cbn [app] in H.
  - left. unfold next in H. change (is_space 34%N) with false in H. cbn [N.eqb] in H. destruct (string_body s) as [[v r']|]; [|discriminate H]. injection H as <- <-. eauto.
  - inversion Hw as [|? ? Hc Hr]; subst. unfold next in H.
    assert (Hsp : is_space c = false).
    { clear - Hc. destruct (is_space c) eqn:E; [|reflexivity]. exfalso. unfold is_space, in_range in E. apply orb_true_iff in E as [E|E]; [apply N.eqb_eq in E as ->; discriminate Hc|].
      apply andb_prop in E as [E1 E2]. apply N.leb_le in E1, E2. assert (K : (c = 9 \/ c = 10 \/ c = 11 \/ c = 12 \/ c = 13)%N) by lia. repeat destruct K as [->|K]; try discriminate Hc. subst. discriminate Hc. }
    rewrite Hsp in H. rewrite !(fun d => namish_neq c d Hc) in H by reflexivity.
    change (txt "///") with (47%N :: txt "//") in H. change (txt "//") with (47%N :: txt "/") in H.
    rewrite !strip_neq in H by (rewrite N.eqb_sym; apply (namish_neq c 47%N Hc eq_refl)).
    destruct (strip (txt "r""") (c :: w ++ 34%N :: s)) as [r'|] eqn:E1.
    { left. destruct (raw_body (txt """") r') as [[v r'']|]; [|discriminate H]. injection H as <- <-. eauto. }
    destruct (strip (txt "r#""") (c :: w ++ 34%N :: s)) as [r'|] eqn:E2.
    { left. destruct (raw_body (txt """#") r') as [[v r'']|]; [|discriminate H]. injection H as <- <-. eauto. }
    destruct (strip (txt "r#") (c :: w ++ 34%N :: s)) as [r'|] eqn:E3.
    { right. destruct (strip_namish (txt "r#") (c :: w) s) as (w' & E & Hw'); [intros K; change (strip (txt "r#") (c :: w ++ 34%N :: s) = None) in K; congruence|intros d [<-|[<-|[]]]; discriminate|exact Hw|].
      change (strip (txt "r#") (c :: w ++ 34%N :: s) = Some (w' ++ 34%N :: s)) in E. assert (r' = w' ++ 34%N :: s) as -> by congruence. clear E. destruct (take_rest ident_continue w' s eq_refl Hw') as (a & w'' & E & Hw''). match type of H with context [take_while ident_continue ?z] => replace (take_while ident_continue z) with (a, w'' ++ 34%N :: s) in H by (symmetry; exact E) end. injection H as <- <-.
      eexists _, w''. split; [reflexivity|]. split; [reflexivity|]. exact Hw''. }
    destruct (ident_start c) eqn:Es.
    { right. cbn [take_while] in H. rewrite (start_continue c Es) in H. destruct (take_rest ident_continue w s eq_refl Hr) as (a & w'' & E & Hw''). match type of H with context [take_while ident_continue ?z] => replace (take_while ident_continue z) with (a, w'' ++ 34%N :: s) in H by (symmetry; exact E) end. injection H as <- <-.
      eexists _, w''. split; [reflexivity|]. split; [reflexivity|]. exact Hw''. }
    destruct (is_digit c) eqn:Ed.
    { left. destruct (number (c :: w ++ 34%N :: s)) as [t r'] eqn:En. injection H as <- <-. unfold number in En. destruct (take_while ident_continue (c :: w ++ 34%N :: s)) as [a b].
      cbv zeta in En. destruct b as [|p [|d b]]; [injection En as <- <-; eauto|injection En as <- <-; eauto|].
      destruct (N.eqb p 46 && is_digit d); [destruct (take_while ident_continue (d :: b)); injection En as <- <-; eauto|injection En as <- <-; eauto]. }
    right. assert (c = 35%N) as ->.
    { unfold namish, ident_continue, is_alnum in Hc. unfold ident_start in Es. apply orb_false_iff in Es as [Ea Eu]. rewrite Ea, Eu, Ed in Hc. cbn [orb] in Hc. apply N.eqb_eq. exact Hc. }
    cbn [N.eqb] in H. change (N.eqb 35 39) with false in H. cbv iota in H. rewrite hash_operator in H. injection H as <- <-. eexists _, w. split; [reflexivity|]. split; [reflexivity|]. exact Hr.
Qed.
Lemma lexemes_namish fuel : forall w s l, Forall (fun c => namish c = true) w -> lexemes fuel (w ++ 34%N :: s) = Some l -> has_literal l.
Proof.
  induction fuel as [|fuel IH]; intros w s l Hw H.
  - destruct w; discriminate H.
  - assert (E : lexemes (S fuel) (w ++ 34%N :: s) = match next (w ++ 34%N :: s) with Some (l, r) => option_map (app l) (lexemes fuel r) | None => None end) by (destruct w; reflexivity).
    rewrite E in H. clear E. destruct (next (w ++ 34%N :: s)) as [[k r]|] eqn:En; [|discriminate H]. destruct (next_namish w s k r Hw En) as [(t & k' & ->)|(t & w' & -> & -> & Hw')].
    + destruct (lexemes fuel r); [|discriminate H]. injection H as <-. exists [], t, (k' ++ l0). reflexivity.
    + destruct (lexemes fuel (w' ++ 34%N :: s)) eqn:El; [|discriminate H]. injection H as <-. apply has_cons, (IH _ _ _ Hw' El).
Qed.

(** What is at the outside stays there. *)
Definition outside (here : list tt) (stack : list (delim * list tt)) : list tt := List.last (map snd stack) here.
Lemma outside_cons here d h stack : outside here ((d, h) :: stack) = outside h stack.
Proof. unfold outside. destruct stack as [|[d' h'] stack]; [reflexivity|]. cbn [map snd]. revert d' h'. induction stack as [|[d'' h''] stack IH]; intros d' h'; [reflexivity|]. cbn [map snd List.last] in *. exact (IH d'' h''). Qed.
Lemma trees_keep l : forall here stack ts x, trees l here stack = Some ts -> In x (outside here stack) -> In x ts.
Proof.
  induction l as [|[t|d|d] l IH]; intros here stack ts x H Hx; cbn [trees] in H.
  - destruct stack; [|discriminate H]. injection H as <-. apply in_rev. rewrite rev_involutive. exact Hx.
  - apply (IH _ _ _ _ H). destruct stack as [|[d h] stack]; [right; exact Hx|]. rewrite outside_cons in *. exact Hx.
  - apply (IH _ _ _ _ H). rewrite outside_cons. exact Hx.
  - destruct stack as [|[d' outer] stack]; [discriminate H|]. destruct (delim_eqb d d'); [|discriminate H]. apply (IH _ _ _ _ H). rewrite outside_cons in Hx.
    destruct stack as [|[d'' h] stack]; [right; exact Hx|]. rewrite outside_cons in *. exact Hx.
Qed.
Lemma trees_literal l1 t l2 : forall here ts, trees (map LTok l1 ++ LTok (TLit t) :: l2) here [] = Some ts -> In (TLit t) ts.
Proof.
  induction l1 as [|k l1 IH]; intros here ts H; cbn [map app trees] in H; [|exact (IH _ _ H)]. apply (trees_keep _ _ _ _ _ H). left. reflexivity.
Qed.
Lemma namish_no_ident w s : Forall (fun c => namish c = true) w -> parse_str_ident rust (w ++ 34%N :: s) = None.
Proof.
  intros Hw. change (match lex_text (w ++ 34%N :: s) with Some [TIdent y] => if plain_ident y then Some y else None | _ => None end = None).
  destruct (lex_text (w ++ 34%N :: s)) as [ts|] eqn:E; [|reflexivity]. unfold lex_text in E. destruct (lexemes _ _) as [l|] eqn:El; [|discriminate E].
  destruct (lexemes_namish _ _ _ _ Hw El) as (l1 & t & l2 & ->). apply trees_literal in E. destruct ts as [|[y| | |] [|? ?]]; try reflexivity. destruct E as [E|[]]. discriminate E.
Qed.

Lemma name_namish x : is_name rust x -> Forall (fun c => namish c = true) x.
Proof.
  assert (H : forall x, ident_ok rust x = true -> Forall (fun c => namish c = true) x).
  { intros y Hy. change (match y with [] => false | c :: r => ident_start c && forallb ident_continue r end = true) in Hy. destruct y as [|c r]; [discriminate|].
    apply andb_prop in Hy as [Hc Hr]. constructor; [unfold namish; rewrite (start_continue c Hc); reflexivity|]. rewrite forallb_forall in Hr. apply Forall_forall. intros d Hd. unfold namish. rewrite (Hr d Hd). reflexivity. }
  intros [Hx|(y & -> & Hy)]; [exact (H x Hx)|]. constructor; [reflexivity|]. constructor; [reflexivity|]. exact (H y Hy).
Qed.
Lemma rust_names_print : names_print rust.
Proof. intros x _. reflexivity. Qed.
Lemma rust_quotes_end_names : quotes_end_names rust.
Proof.
  intros l w s Hl Hw. rewrite app_assoc. apply namish_no_ident. apply Forall_app. split.
  - induction Hl as [|x l Hx _ IH]; [constructor|]. cbn [List.concat]. apply Forall_app. split; [exact (name_namish x Hx)|exact IH].
  - induction Hw as [|c w Hc _ IH]; constructor; [destruct Hc as [->| ->]; reflexivity|exact IH].
Qed.
(** Strings that functions compose are quoted. *)
Lemma rust_composed x : spelled rust (VLitStr x []).
Proof. exists [], (escape x ++ [34%N]). split; [reflexivity|constructor]. Qed.
