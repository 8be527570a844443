From Coq Require Import String.
From Verif Require Import Base BaseFacts Token Types Values SpecTypes Concrete.

Lemma ty_eqb_eq a : forall b, ty_eqb a b = true <-> a = b.
Proof.
  induction a; intros [| | | | | | | |b]; cbn; try (split; [discriminate|congruence]); try tauto.
  rewrite IHa. split; congruence.
Qed.
Lemma ty_eqb_refl a : ty_eqb a a = true.
Proof. apply ty_eqb_eq. reflexivity. Qed.
Lemma ty_eqb_neq a b : a <> b -> ty_eqb a b = false.
Proof. intros H. destruct (ty_eqb a b) eqn:E; [apply ty_eqb_eq in E; congruence|reflexivity]. Qed.

Lemma basic_iff a b c : coercion_cost_basic a b = Some c <-> coerces a b c.
Proof.
  unfold coercion_cost_basic. split.
  - destruct (ty_eqb a b) eqn:E.
    + apply ty_eqb_eq in E as ->. intros H; injection H as <-. constructor.
    + assert (a <> b) by (intros ->; rewrite ty_eqb_refl in E; discriminate).
      intros Hc. destruct a, b; try discriminate Hc; injection Hc as <-; constructor; assumption.
  - intros H. destruct H; try reflexivity.
    + rewrite ty_eqb_refl. reflexivity.
    + rewrite ty_eqb_neq by assumption. destruct t; reflexivity.
    + rewrite ty_eqb_neq by assumption. destruct t; reflexivity.
Qed.

Lemma cost_iff a b c : coercion_cost a b = Some c <-> coerces_param a b c.
Proof.
  unfold coercion_cost. split.
  - intros H. destruct a, b; try (apply CpPlain; apply basic_iff; exact H).
    apply CpVariadic. apply basic_iff. exact H.
  - intros H. destruct H as [a b c H|a b c H].
    + destruct H; try reflexivity.
      * destruct t; try reflexivity. apply basic_iff. constructor.
      * destruct t; try reflexivity. congruence.
      * destruct t; try reflexivity. congruence.
    + apply basic_iff. exact H.
Qed.

Lemma basic_same a : coercion_cost_basic a a = Some 0%N.
Proof. apply basic_iff. constructor. Qed.
Lemma cost_same a : coercion_cost a a = Some 0%N.
Proof. apply cost_iff. apply CpPlain. constructor. Qed.

Lemma basic_triangle a b c x y :
  coerces a b x -> coerces b c y -> exists z, coerces a c z /\ (z <= x + y)%N.
Proof.
  intros H1 H2.
  assert (Ht : exists z, coerces a TyTokens z /\ (z <= 4)%N).
  { destruct (ty_eqb a TyTokens) eqn:E; [apply ty_eqb_eq in E as ->; exists 0%N; split; [constructor|lia]|].
    exists 4%N. split; [apply CoTokens; intros ->; discriminate|lia]. }
  assert (Hr : exists z, coerces a TyRaw z /\ (z <= 5)%N).
  { destruct (ty_eqb a TyRaw) eqn:E; [apply ty_eqb_eq in E as ->; exists 0%N; split; [constructor|lia]|].
    exists 5%N. split; [apply CoRaw; intros ->; discriminate|lia]. }
  destruct Ht as (zt & Ht & Hlt), Hr as (zr & Hr & Hlr).
  inversion H2; subst.
  - exists x. split; [exact H1|lia].
  - inversion H1; subst. exists 1%N. split; [constructor|lia].
  - inversion H1; subst. exists 2%N. split; [constructor|lia].
  - inversion H1; subst. exists 3%N. split; [constructor|lia].
  - exists zt. split; [exact Ht|lia].
  - exists zr. split; [exact Hr|lia].
Qed.

Lemma cost_triangle a b c x y :
  coercion_cost a b = Some x -> coercion_cost b c = Some y ->
  exists z, coercion_cost a c = Some z /\ (z <= x + y)%N.
Proof.
  rewrite !cost_iff. intros H1 H2.
  enough (exists z, coerces_param a c z /\ (z <= x + y)%N) as (z & Hz & Hl)
    by (exists z; split; [apply cost_iff; exact Hz|exact Hl]).
  destruct H1 as [a b x H1|a b x H1].
  - inversion H2 as [? ? ? H|b' c' ? H]; subst.
    + destruct (basic_triangle _ _ _ _ _ H1 H) as (z & Hz & Hl). exists z. split; [apply CpPlain; exact Hz|exact Hl].
    + inversion H1; subst. exists y. split; [apply CpVariadic; exact H|lia].
  - inversion H2 as [? ? ? H|b' c' ? H]; subst.
    + inversion H; subst.
      * exists x. split; [apply CpVariadic; exact H1|lia].
      * exists 4%N. split; [apply CpPlain; constructor; discriminate|lia].
      * exists 5%N. split; [apply CpPlain; constructor; discriminate|lia].
    + destruct (basic_triangle _ _ _ _ _ H1 H) as (z & Hz & Hl). exists z. split; [apply CpVariadic; exact Hz|exact Hl].
Qed.

(** A cost of zero means the same type; mutual coercion only between tokens and raw. *)
Lemma cost_zero a b : coercion_cost a b = Some 0%N -> a = b.
Proof.
  rewrite cost_iff. intros H. inversion H as [? ? ? H'|? ? ? H']; subst; inversion H'; congruence.
Qed.

(** Costs are at most 5. *)
Lemma cost_bound a b c : coercion_cost a b = Some c -> (c <= 5)%N.
Proof. rewrite cost_iff. intros H. destruct H as [? ? ? H|? ? ? H]; destruct H; lia. Qed.

(** ** C38 *)
Lemma variadic_not_parsed kw t t' : ty_parse_ident kw (ty_display (TyVariadic t)) <> Some t'.
Proof.
  assert (Hl : last (ty_display (TyVariadic t)) 0%N = 46%N)
    by (cbn [ty_display]; rewrite last_app by discriminate; reflexivity).
  unfold ty_parse_ident. destruct (kw _); [discriminate|].
  assert (Hne : forall x, last x 0%N <> 46%N -> str_eqb (ty_display (TyVariadic t)) x = false).
  { intros x Hx. destruct (str_eqb _ x) eqn:E; [|reflexivity]. apply str_eqb_eq in E. exfalso. apply Hx. rewrite <- E. exact Hl. }
  rewrite !Hne by (vm_compute; discriminate). discriminate.
Qed.

(** Keywords are refused by the identifier parser, so `type` is not read back. *)
Lemma round_trip_iff kw t :
  kw (txt "type") = true ->
  (forall t, readable t = true -> kw (ty_display t) = false) ->
  (ty_parse_ident kw (ty_display t) = Some t <-> readable t = true).
Proof.
  intros Hk Hr. split.
  - intros H. destruct t; try reflexivity; exfalso.
    + unfold ty_parse_ident in H. cbn [ty_display] in H. rewrite Hk in H. discriminate H.
    + unfold ty_parse_ident in H. destruct (kw (ty_display TyExpr)); [discriminate H|]. vm_compute in H. discriminate H.
    + unfold ty_parse_ident in H. destruct (kw (ty_display TyRaw)); [discriminate H|]. vm_compute in H. discriminate H.
    + exact (variadic_not_parsed kw t _ H).
  - intros H. unfold ty_parse_ident. rewrite (Hr t H). destruct t; try discriminate H; reflexivity.
Qed.

Lemma type_names_wrong :
  exists t, ty_parse_ident (fun _ => false) (ty_display t) <> Some t.
Proof. exists TyExpr. vm_compute. discriminate. Qed.

(** ** C40 *)
Section Cast.
Context (O : oracles).

Ltac cast_cases :=
  repeat match goal with
  | H : or_type_error ?x _ = Ok _ |- _ =>
      let E := fresh "E" in destruct x eqn:E; cbn [or_type_error] in H; [injection H as <-|discriminate H]
  | H : Ok _ = Ok _ |- _ => injection H as <-
  | H : Err _ = Ok _ |- _ => discriminate H
  | H : match ?x with Some _ => _ | None => _ end = Ok _ |- _ => destruct x as [?|] eqn:?
  | H : (let (_, _) := ?x in _) = Ok _ |- _ => destruct x
  | H : from_lit_str_as_ident _ _ = Ok _ |- _ => unfold from_lit_str_as_ident in H
  end.

Lemma cast_type v t w : try_cast O v t = Ok w -> type_of w = t.
Proof.
  unfold try_cast. destruct (ty_eqb (type_of v) t) eqn:E.
  - intros H; injection H as <-. apply ty_eqb_eq. exact E.
  - intros H. destruct v, t; cast_cases; try reflexivity.
Qed.

Lemma cast_same v : try_cast O v (type_of v) = Ok v.
Proof. unfold try_cast. rewrite ty_eqb_refl. reflexivity. Qed.

Lemma cast_never_panics v t p : try_cast O v t <> Panic p.
Proof.
  unfold try_cast. destruct (ty_eqb _ _); [discriminate|].
  destruct v, t; try discriminate; unfold from_lit_str_as_ident;
    repeat match goal with
    | |- context [match ?x with Some _ => _ | None => _ end] => destruct x as [?|] eqn:?
    | |- context [let (_, _) := ?x in _] => destruct x
    | |- or_type_error ?x _ <> _ => destruct x; discriminate
    end; discriminate.
Qed.

Lemma cast_errors v t e : try_cast O v t = Err e -> e = TypeError.
Proof.
  unfold try_cast. destruct (ty_eqb _ _); [discriminate|].
  destruct v, t; try discriminate; unfold from_lit_str_as_ident;
    repeat match goal with
    | |- context [match ?x with Some _ => _ | None => _ end] => destruct x as [?|] eqn:?
    | |- context [let (_, _) := ?x in _] => destruct x
    | |- or_type_error ?x _ = _ -> _ => destruct x; cbn [or_type_error]
    end; congruence.
Qed.

Lemma cast_tokens v : exists w, try_cast O v TyTokens = Ok w /\ to_tokens w = to_tokens v /\ type_of w = TyTokens.
Proof. destruct v; eexists; repeat split; reflexivity. Qed.

Lemma cast_raw v : exists w, try_cast O v TyRaw = Ok w /\ to_tokens w = to_tokens v /\ type_of w = TyRaw.
Proof. destruct v; eexists; repeat split; reflexivity. Qed.

(** The parser a syntactic type is read with. *)
Definition parser_of (t : ty) : option (list tt -> option (list tt)) :=
  match t with
  | TyPath => Some (parse_path O)
  | TyType => Some (parse_type O)
  | TyExpr => Some (parse_expr O)
  | _ => None
  end.

Lemma cast_syntactic v t parse :
  parser_of t = Some parse -> parse (to_tokens v) = Some (to_tokens v) -> type_of v = t ->
  exists w, try_cast O v TyTokens = Ok w /\ try_cast O w t = Ok v.
Proof.
  intros Hp Hv Ht. destruct v; subst t; cbn in Hp; try discriminate Hp; injection Hp as <-; cbn in Hv;
    eexists; (split; [reflexivity|]); unfold try_cast; cbn; rewrite Hv; reflexivity.
Qed.

Lemma cast_ident_str x :
  parse_str_ident O x = Some x ->
  exists w, try_cast O (VIdent x) TyLitStr = Ok w /\ try_cast O w TyIdent = Ok (VIdent x).
Proof.
  intros H. eexists. split; [reflexivity|]. unfold try_cast. cbn. unfold from_lit_str_as_ident. rewrite H. reflexivity.
Qed.

(** Coercion is a special case of casting: whenever a coercion exists, casting fails
    only if an identifier is not accepted as a type or an expression. *)
Lemma coercion_cast v t c :
  (forall x, parse_type O [TIdent x] <> None) -> (forall x, parse_expr O [TIdent x] <> None) ->
  coercion_cost (type_of v) t = Some c -> exists w, try_cast O v t = Ok w.
Proof.
  intros HT HE. rewrite cost_iff. intros H.
  remember (type_of v) as a eqn:Ea. destruct H as [a b c H|a b c H]; [|destruct v; discriminate].
  destruct H; subst.
  - exists v. rewrite <- (cast_same v). reflexivity.
  - destruct v; try discriminate. eexists; reflexivity.
  - destruct v; try discriminate. unfold try_cast. cbn. specialize (HT x).
    destruct (parse_type O [TIdent x]); [eexists; reflexivity|congruence].
  - destruct v; try discriminate. unfold try_cast. cbn. specialize (HE x).
    destruct (parse_expr O [TIdent x]); [eexists; reflexivity|congruence].
  - destruct (cast_tokens v) as (w & Hw & _). eauto.
  - destruct (cast_raw v) as (w & Hw & _). eauto.
Qed.
End Cast.
