(** In the Rust instance words are read as the identifier that is written there. *)
From Coq Require Import String Lia.
From Verif Require Import Base BaseFacts Token Values RustLexer Concrete RustGrammar RustInstance RustStrings SpecDistinct.
Open Scope list_scope.

Lemma word_continue c : word_char c = true -> ident_continue c = true.
Proof.
  unfold word_char, ident_continue, is_alnum, is_alpha, is_lower, is_upper, is_digit, in_range. intros H.
  destruct (48 <=? c)%N, (c <=? 57)%N, (65 <=? c)%N, (c <=? 90)%N, (c =? 95)%N, (97 <=? c)%N, (c <=? 122)%N; cbn in *; congruence.
Qed.
Lemma take_word x : forallb word_char x = true -> take_while ident_continue x = (x, []).
Proof. induction x as [|c x IH]; intros H; [reflexivity|]. cbn [forallb] in H. apply andb_prop in H as (Hc & H). cbn [take_while]. rewrite (word_continue c Hc), (IH H). reflexivity. Qed.
Lemma word_neq c d : word_char c = true -> word_char d = false -> N.eqb c d = false.
Proof. intros Hc Hd. apply N.eqb_neq. intros ->. congruence. Qed.
Lemma word_space c : word_char c = true -> is_space c = false.
Proof.
  intros H. unfold is_space, in_range. rewrite (word_neq c 32%N H eq_refl). cbn [orb]. destruct (9 <=? c)%N eqn:E1, (c <=? 13)%N eqn:E2; try reflexivity. exfalso.
  apply N.leb_le in E1, E2. unfold word_char in H. assert (L : forall k, (14 <= k)%N -> (k <=? c)%N = false) by (intros k Hk; apply N.leb_gt; lia).
  rewrite !L in H by lia. cbn in H. rewrite orb_false_r in H. apply N.eqb_eq in H. lia.
Qed.
Lemma strip_word p d q x : forallb word_char x = true -> word_char d = false -> strip (p ++ d :: q) x = None.
Proof.
  revert x. induction p as [|a p IH]; intros [|c x] H Hd; try reflexivity; cbn [forallb] in H; apply andb_prop in H as (Hc & H); cbn [app strip].
  - destruct (N.eqb d c) eqn:E; [apply N.eqb_eq in E; subst; congruence|reflexivity].
  - destruct (N.eqb a c); [exact (IH x H Hd)|reflexivity].
Qed.
Lemma rust_words_read : words_read rust.
Proof.
  intros x y Hx. change (parse_str_ident rust x) with (match lex_text x with Some [TIdent z] => if plain_ident z then Some z else None | _ => None end).
  destruct x as [|c r]; [discriminate|]. unfold lex_text. cbn [List.length lexemes].
  assert (Hc : word_char c = true) by (cbn [forallb] in Hx; apply andb_prop in Hx as (Hc & _); exact Hc).
  unfold next. rewrite (word_space c Hc). rewrite !(fun d H => word_neq c d Hc H) by reflexivity.
  rewrite (strip_word [] 47%N (txt "//") (c :: r) Hx eq_refl : strip (txt "///") (c :: r) = None), (strip_word [] 47%N (txt "/") (c :: r) Hx eq_refl : strip (txt "//") (c :: r) = None).
  rewrite (strip_word (txt "r") 34%N [] (c :: r) Hx eq_refl : strip (txt "r""") (c :: r) = None), (strip_word (txt "r") 35%N (txt """") (c :: r) Hx eq_refl : strip (txt "r#""") (c :: r) = None),
    (strip_word (txt "r") 35%N [] (c :: r) Hx eq_refl : strip (txt "r#") (c :: r) = None).
  unfold number. rewrite (take_word (c :: r) Hx).
  destruct (ident_start c) eqn:Es.
  - replace (lexemes (List.length r) []) with (Some (@nil lexeme)) by (destruct (List.length r); reflexivity). cbn [option_map app trees rev]. destruct (plain_ident (c :: r)); [|discriminate]. intros H. injection H as <-. reflexivity.
  - assert (Hd : is_digit c = true). { pose proof (word_continue c Hc) as K. unfold ident_continue, is_alnum in K. unfold ident_start in Es. apply orb_false_elim in Es as (Ea & E9). rewrite Ea, E9 in K. cbn in K. rewrite ?orb_false_r in K. exact K. }
    rewrite Hd. replace (lexemes (List.length r) []) with (Some (@nil lexeme)) by (destruct (List.length r); reflexivity). cbn [option_map app trees rev]. discriminate.
Qed.
