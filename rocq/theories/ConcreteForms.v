(** The concrete parsers stay within their input and find blocks in braces. *)
From Coq Require Import String.
From Verif Require Import Base Token Types Values Ast Item Parse SpecParse SpecForms Concrete ConcreteSpecs ConcreteParse.
Open Scope list_scope.

Lemma ascii_within : within ascii_parsers.
Proof.
  unfold within. cbn [ascii_parsers pre_lit_int pre_lit_str pre_path pre_type pre_expr pre_block].
    assert (Hn : forall ts rest x k u, node ts rest = Some (x, k, u) -> k <= List.length ts).
    { intros ts [r|] x k u H; [|discriminate]. injection H as _ <- _. lia. }
    repeat split; eauto.
    + intros [|[x0|c j|[sv sp|d r|ot]|dd gg] ts] d' r' k; try discriminate.
      * destruct ts as [|[x1|c1 j1|[sv sp|d r|ot]|dd gg] ts]; try discriminate. destruct (N.eqb c 45); [|discriminate]. intros H. injection H as _ _ <-. cbn. lia.
      * intros H. injection H as _ _ <-. cbn. lia.
    + intros [|[x0|c j|[v p|d r|ot]|dd gg] ts] v' p' k; try discriminate. intros H. injection H as _ _ <-. cbn. lia.
    + unfold pre_type0. intros [|[x0|c j|l0|[| | |] [|t0 inner]] ts] x k u; eauto.
      * intros H. injection H as _ <- _. cbn. lia.
      * destruct (simple_type _ _) as [[|t r]|]; [|destruct (is_comma t)|discriminate]; intros H; injection H as _ <- _; cbn; lia.
    + intros [|[x0|c j|l0|[| | |] inner] ts] b k u; try discriminate. destruct (items0 _ _); [|discriminate]. intros H. injection H as _ <- _. cbn. lia.
Qed.

Lemma ascii_braced : braced ascii_parsers.
Proof.
  split.
  - intros [|[x0|c j|l0|[| | |] inner] ts] b k u; try discriminate. cbn [ascii_parsers pre_block]. destruct (items0 _ _); [|discriminate].
      intros H. injection H as _ <- _. split; [reflexivity|]. eauto.
  - reflexivity.
Qed.
