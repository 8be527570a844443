(** A case conversion inside of another. *)
From Coq Require Import String.
From Verif Require Import Base BaseFacts Token Types Values Ast Env Resolve Eval SpecElab SpecCalls SpecFunctions SpecNesting SpecCasing SpecPrograms
  NestingProofs NestingRuns NestingLaws Concrete RustLexer RustText RustInstance CasingProofs.
Open Scope list_scope.

Definition text_function (O : oracles) (seed : N) (name : str) (g : str -> str) : Prop :=
  (forall r vs, call_meaning O seed name r vs = on_text O name g r vs) /\ result_type name = one same_text /\ (forall r, reads_source name r = false) /\
  (forall i args r, misfit (ECall i name args r) = SignatureError name).

Section Absorb.
Context (O : oracles) (seed first : N) (outer inner : str) (g h : str -> str).
Hypotheses (Hg : text_function O seed outer g) (Hh : text_function O seed inner h).
Hypothesis same : forall x, g (h x) = g x.
Hypothesis names : forall x, ident_ok O (h x) = false -> ident_ok O (g x) = false.

Lemma kind_text name f G i e r : text_function O seed name f -> kind G (ECall i name [e] r) = match kind G e with Some s => same_text s | None => None end.
Proof. intros (_ & Ht & Hr & _). rewrite kind_call, Hr. cbn [map all_some]. destruct (kind G e); [|reflexivity]. cbn [all_some option_map]. rewrite Ht. reflexivity. Qed.

Theorem absorbs pre a e post i j raw raw' raw'' c c' :
  let nested := ECall i outer [ECall j inner [e] raw'] raw in
  let flat := ECall i outer [e] raw'' in
  NoDup (item_ids (pre ++ (a, nested) :: post)) -> NoDup (item_ids (pre ++ (a, flat) :: post)) ->
  independent_items [] (pre ++ (a, nested) :: post) = true -> independent_items [] (pre ++ (a, flat) :: post) = true ->
  make_substitutions O (new_initialized O seed first) {| spec_items := pre ++ (a, nested) :: post; is_comma_used := c |} =
  make_substitutions O (new_initialized O seed first) {| spec_items := pre ++ (a, flat) :: post; is_comma_used := c' |}.
Proof.
  intros nested flat H1 H2 Hi Hi'. apply exchange; try assumption. intros G HG. unfold nested, flat. rewrite (kind_text outer g G i _ raw Hg), (kind_text outer g G i _ raw'' Hg), (kind_text inner h G j _ raw' Hh).
  split; [destruct (kind G e) as [[]|]; reflexivity|]. destruct Hg as (Mg & _ & Rg & Eg). destruct Hh as (Mh & _ & Rh & _). split; [intros _; rewrite !Eg; reflexivity|].
  intros t Ht bs Hbs Hc Hn. cbn [denote mapM]. rewrite !Rg, Rh. cbn [mapM bind].
  assert (Hie : independent G e = true).
  { pose proof (independent_app _ _ _ _ HG Hi') as Hx. cbn [independent_items] in Hx. apply andb_prop in Hx as [Hx _]. unfold flat in Hx. cbn [independent] in Hx.
    rewrite Rg in Hx. cbn [orb forallb] in Hx. apply andb_prop in Hx as [Hx _]. apply andb_prop in Hx as [Hx _]. rewrite andb_true_r in Hx. exact Hx. }
  destruct (denote O seed bs e) as [v| |] eqn:Ev; [|reflexivity|reflexivity]. cbn [bind].
  assert (Hty : kind G e = Some (type_of v)).
  { destruct (kind G e) as [s|] eqn:Ek; [|discriminate]. pose proof (typed_args O seed first G bs [e] [s] [v] Hc Hn) as T. cbn [forallb map mapM] in T. rewrite Hie, Ev in T. cbn [bind andb] in T.
    rewrite Ek in T. specialize (T eq_refl eq_refl eq_refl). injection T as T. rewrite T. reflexivity. }
  rewrite Hty in Ht. rewrite Mg, Mh. unfold on_text, unary. destruct v as [x| | | |x sp| | | ]; try discriminate; cbn [type_of same_text] in Ht.
  - unfold identifier at 1. destruct (ident_ok O (h x)) eqn:Eo; cbn [bind].
    + rewrite Mg. unfold on_text, unary. rewrite same. reflexivity.
    + unfold identifier. rewrite (names x Eo). reflexivity.
  - cbn [bind]. rewrite Mg. unfold on_text, unary. rewrite same. reflexivity.
Qed.
End Absorb.

Ltac text_fn := split; [intros; reflexivity|split; [reflexivity|split; [intros []; reflexivity|intros; reflexivity]]].
Theorem absorbed_law outer inner : In (outer, inner) absorbed -> forall seed first pre a e post i j raw raw' raw'' c c',
  let nested := ECall i outer [ECall j inner [e] raw'] raw in
  let flat := ECall i outer [e] raw'' in
  NoDup (item_ids (pre ++ (a, nested) :: post)) -> NoDup (item_ids (pre ++ (a, flat) :: post)) ->
  independent_items [] (pre ++ (a, nested) :: post) = true -> independent_items [] (pre ++ (a, flat) :: post) = true ->
  make_substitutions rust (new_initialized rust seed first) {| spec_items := pre ++ (a, nested) :: post; is_comma_used := c |} =
  make_substitutions rust (new_initialized rust seed first) {| spec_items := pre ++ (a, flat) :: post; is_comma_used := c' |}.
Proof.
  intros Hin seed first.
  assert (Hs : text_function rust seed (txt "snake_case") heck_snake) by text_fn.
  assert (Hp : text_function rust seed (txt "pascal_case") heck_pascal) by text_fn.
  assert (Hc : text_function rust seed (txt "camel_case") heck_camel) by text_fn.
  assert (Hu : text_function rust seed (txt "upper") (map up)) by text_fn.
  assert (Hl : text_function rust seed (txt "lower") (map low)) by text_fn.
  assert (Nu : forall x, name_ok (map up x) = name_ok x) by exact upper_names.
  assert (Nl : forall x, name_ok (map low x) = name_ok x) by exact lower_names.
  assert (Ns : forall x, name_ok (heck_snake x) = false -> name_ok (heck_pascal x) = false /\ name_ok (heck_camel x) = false).
  { intros x H. destruct (names_kept x) as (H1 & H2 & H3). rewrite H2, H3, <- H1. auto. }
  assert (HM : forall f k : chr -> chr, (forall c, f (k c) = f c) -> forall x, map f (map k x) = map f x) by (intros f k Hf x; rewrite map_map; apply map_ext, Hf).
  unfold absorbed in Hin. cbn [map In fst snd] in Hin.
  repeat (destruct Hin as [Hin|Hin]; [injection Hin as <- <-|]); [ | | | | | | | destruct Hin].
  - apply (absorbs rust seed first _ _ heck_snake heck_snake Hs Hs snake_snake). intros x H. exact H.
  - apply (absorbs rust seed first _ _ heck_camel heck_snake Hc Hs camel_snake). intros x H. exact (proj2 (Ns x H)).
  - apply (absorbs rust seed first _ _ heck_pascal heck_snake Hp Hs pascal_snake). intros x H. exact (proj1 (Ns x H)).
  - apply (absorbs rust seed first _ _ (map up) (map up) Hu Hu (HM up up up_up)). intros x H. exact H.
  - apply (absorbs rust seed first _ _ (map up) (map low) Hu Hl (HM up low up_low)). intros x H. exact (eq_trans (Nu x) (eq_trans (eq_sym (Nl x)) H)).
  - apply (absorbs rust seed first _ _ (map low) (map up) Hl Hu (HM low up low_up)). intros x H. exact (eq_trans (Nl x) (eq_trans (eq_sym (Nu x)) H)).
  - apply (absorbs rust seed first _ _ (map low) (map low) Hl Hl (HM low low low_low)). intros x H. exact H.
Qed.
