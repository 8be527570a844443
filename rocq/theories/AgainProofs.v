(** Proofs for C100: putting in again what came out. *)
From Coq Require Import String.
From Verif Require Import Base BaseFacts Token Types Values FormatString StreamWalker SubstituteIdents SpecSubst SubstFacts ItemFacts
  Item AliasSubstitution SpecItem SpecRespelled VisitorProofs VisitorTotal RespelledProofs.
Open Scope list_scope.

Section Visited.
Context (O : oracles) (lookup : str -> option value) (reparse : kind -> list tt -> option (list tt)).
Context (F : faithful O reparse).

Lemma node_visited k ts ts' : visit_node O lookup reparse k ts = Ok ts' -> node_ok reparse k ts'.
Proof. intros H. apply substitutes in H. unfold node_ok. rewrite (faithful_node _ _ F _ _ _ H) at 1. exact H. Qed.
Lemma name_visited x x' : visit_name O lookup x = Ok x' -> name_ok O x'.
Proof. intros H. apply substitutes in H. unfold name_ok. rewrite <- (faithful_ident _ _ F _ _ H). exact H. Qed.
Lemma outer_parsed ts : forall l, parse_outer reparse ts = Some l -> attrs_ok reparse l.
Proof.
  assert (H : forall n ts l, List.length ts <= n -> parse_outer reparse ts = Some l -> attrs_ok reparse l); [|intros l; exact (H _ ts l (le_n _))].
  clear ts. induction n as [|n IH]; intros ts l Hn H; (destruct ts as [|t ts]; [injection H as <-; constructor|]); [inversion Hn|].
  cbn [parse_outer] in H. destruct t as [ |c j| | ]; try discriminate. destruct ts as [|[ | | |d m] ts]; try discriminate. destruct d; try discriminate.
  destruct (N.eqb c 35); [|discriminate]. destruct (reparse KMeta m) as [m'|] eqn:Em; [|discriminate].
  destruct (parse_outer reparse ts) as [l'|] eqn:Er; [|discriminate]. injection H as <-. constructor.
  - split; [reflexivity|]. unfold node_ok. cbn [meta]. rewrite (faithful_node _ _ F _ _ _ Em) at 1. exact Em.
  - apply (IH ts l'); [cbn [List.length] in Hn; lia|exact Er].
Qed.
Lemma attrs_visited l l' : visit_attrs O lookup reparse l = Ok l' -> attrs_ok reparse l'.
Proof. intros H. apply substitutes in H. exact (outer_parsed _ _ H). Qed.
Lemma list_visited {A} (f : A -> res A) (P : A -> Prop) : (forall x y, f x = Ok y -> P y) -> forall l l', mapM f l = Ok l' -> Forall P l'.
Proof. intros H l l' Hl. apply mapM_ok in Hl. induction Hl; constructor; eauto. Qed.
Lemma field_visited f f' : visit_field O lookup reparse f = Ok f' -> field_ok O reparse f'.
Proof.
  unfold visit_field. intros H. run H. injection H as <-. split; [|split; [|split]]; cbn [f_attrs f_vis f_ident f_ty].
  - eapply attrs_visited; eauto.
  - eapply node_visited; eauto.
  - intros x ->. destruct (f_ident f) as [y|]; cbn [visit_opt] in E1; [|discriminate]. run E1. injection E1 as <-. eapply name_visited; eauto.
  - eapply node_visited; eauto.
Qed.
Lemma fields_visited f f' : visit_fields O lookup reparse f = Ok f' -> fields_ok O reparse f'.
Proof.
  destruct f as [l t|l t|]; cbn [visit_fields]; intros H; [run H; injection H as <-; cbn [fields_ok]; eapply list_visited; [|exact E]; exact field_visited ..|].
  injection H as <-. exact I.
Qed.
Lemma variant_visited v v' : visit_variant O lookup reparse v = Ok v' -> variant_ok O reparse v'.
Proof.
  unfold visit_variant. intros H. run H. injection H as <-. split; [|split; [|split]]; cbn [v_attrs v_ident v_fields v_disc].
  - eapply attrs_visited; eauto.
  - eapply name_visited; eauto.
  - eapply fields_visited; eauto.
  - intros e ->. destruct (v_disc v); cbn [visit_opt] in E2; [|discriminate]. run E2. injection E2 as <-. eapply node_visited; eauto.
Qed.
Lemma generics_visited g g' : visit_generics O lookup reparse g = Ok g' -> node_ok reparse KGenerics (g_params g') /\ no_where_generics g' = g'.
Proof. unfold visit_generics. intros H. run H. injection H as <-. split; [eapply node_visited; eauto|reflexivity]. Qed.
Lemma other_visited ts ts' : visit_other_stmt O lookup reparse ts = Ok ts' -> stmt_tokens_ok reparse ts'.
Proof.
  unfold visit_other_stmt. destruct (reparse KBlock [TGroup Brace ts]) as [b|]; [|discriminate]. intros H. run H.
  destruct r as [|[ | | |[] g] [|? ?]]; try discriminate. injection H as <-. exact (node_visited _ _ _ E).
Qed.

(** What the visitor makes is fit for it, and has no where clauses. *)
Definition fit {A} (visit : A -> res A) (ok : A -> Prop) (drop : A -> A) (x : A) : Prop := forall y, visit x = Ok y -> ok y /\ drop y = y.
Lemma children_visited {A} (visit : A -> res A) ok drop l : Forall (fit visit ok drop) l ->
  forall l', mapM visit l = Ok l' -> fold_right and True (map ok l') /\ map drop l' = l'.
Proof.
  induction 1 as [|x l Hx _ IH]; intros l' H; cbn [mapM] in H; [injection H as <-; split; [exact I|reflexivity]|]. run H. injection H as <-.
  destruct (Hx _ E) as [H1 H2], (IH _ eq_refl) as [H3 H4]. cbn [map fold_right]. rewrite H2, H4. auto.
Qed.
Notation FI := (fit (visit_item O lookup reparse) (item_ok O reparse) drop_where).
Notation FS := (fit (visit_stmt O lookup reparse) (stmt_ok O reparse) drop_where_stmt).
Notation FT := (fit (visit_trait_item O lookup reparse) (trait_item_ok O reparse) drop_where_trait_item).
Notation FM := (fit (visit_impl_item O lookup reparse) (impl_item_ok O reparse) drop_where_impl_item).
Ltac parts := repeat split; first [eapply attrs_visited; eassumption|eapply node_visited; eassumption|eapply name_visited; eassumption|eapply fields_visited; eassumption|assumption|idtac].

Lemma item_visited i : FI i.
Proof.
  apply (item_ind' FI FS FT FM); unfold fit; clear i.
  - intros a v s b IH y H. rewrite visit_fn in H. run H. injection H as <-. destruct (children_visited _ _ _ _ IH _ E2) as [Hb Hd].
    cbn [item_ok drop_where]. rewrite Hd. parts.
  - intros a v x g f y H. cbn [visit_item] in H. run H. injection H as <-. destruct (generics_visited _ _ E2) as [Hg Hw]. cbn [item_ok drop_where]. rewrite Hw. parts.
  - intros a v x g l t y H. cbn [visit_item] in H. run H. injection H as <-. destruct (generics_visited _ _ E2) as [Hg Hw]. cbn [item_ok drop_where]. rewrite Hw. parts.
    eapply list_visited; [|exact E3]. exact variant_visited.
  - intros a v x g l t y H. cbn [visit_item] in H. run H. injection H as <-. destruct (generics_visited _ _ E2) as [Hg Hw]. cbn [item_ok drop_where]. rewrite Hw. parts.
    eapply list_visited; [|exact E3]. exact field_visited.
  - intros a v u au x g s t l IH y H. rewrite visit_trait in H. run H. injection H as <-. destruct (generics_visited _ _ E2) as [Hg Hw].
    destruct (children_visited _ _ _ _ IH _ E4) as [Hb Hd]. cbn [item_ok drop_where]. rewrite Hw, Hd. parts.
    eapply list_visited; [|exact E3]. exact (node_visited KBound).
  - intros a d u g tr ty l IH y H. rewrite visit_impl in H. run H. injection H as <-. destruct (generics_visited _ _ E0) as [Hg Hw].
    destruct (children_visited _ _ _ _ IH _ E3) as [Hb Hd]. cbn [item_ok drop_where]. rewrite Hw, Hd. parts.
    intros b p ->. destruct tr as [[b0 p0]|]; cbn [visit_opt] in E1; [|discriminate]. run E1. injection E1 as ->. cbn [snd fst] in E4. run E4. injection E4 as _ <-. eapply node_visited; eauto.
  - intros a v u x l IH y H. rewrite visit_mod in H. run H. injection H as <-. run E2. injection E2 as <-. destruct (children_visited _ _ _ _ IH _ E3) as [Hb Hd].
    cbn [item_ok drop_where]. rewrite Hd. parts.
  - intros a v u x y H. cbn [visit_item bind] in H. run H. injection H as <-. cbn [item_ok drop_where]. parts.
  - intros a u abi l y H. cbn [visit_item] in H. run H. injection H as <-. cbn [item_ok drop_where]. parts.
    + intros v p ->. destruct abi as [[v0 p0]|]; cbn [visit_opt] in E0; [|discriminate]. run E0. injection E0 as ->. apply substitutes in E2. rewrite <- (faithful_str _ _ F _ _ _ E2). exact E2.
    + eapply list_visited; [|exact E1]. exact (node_visited KForeignItem).
  - intros ts y H. cbn [visit_item] in H. run H. injection H as <-. cbn [item_ok drop_where]. parts.
  - intros i IH y H. destruct i; cbn [visit_stmt] in H; run H; injection H as <-.
    all: try (split; [exact (other_visited _ _ E)|reflexivity]).
    all: destruct (IH _ E) as [H1 H2]; cbn [drop_where_stmt]; rewrite H2; split; [|reflexivity].
    all: try (rewrite visit_fn in E || rewrite visit_trait in E || rewrite visit_impl in E); cbn [visit_item] in E; run E; injection E as <-; exact H1.
  - intros ts y H. cbn [visit_stmt] in H. run H. injection H as <-. split; [exact (other_visited _ _ E)|reflexivity].
  - intros a s b IH y H. rewrite visit_trait_fn in H. run H. injection H as <-. run E1. injection E1 as <-. destruct (children_visited _ _ _ _ IH _ E2) as [Hb Hd].
    cbn [trait_item_ok drop_where_trait_item]. rewrite Hd. parts.
  - intros a s y H. cbn [visit_trait_item bind] in H. run H. injection H as <-. cbn [trait_item_ok drop_where_trait_item]. parts.
  - intros k ts y H. cbn [visit_trait_item] in H. run H. injection H as <-. cbn [trait_item_ok drop_where_trait_item]. parts.
  - intros a v d s b IH y H. rewrite visit_impl_fn in H. run H. injection H as <-. destruct (children_visited _ _ _ _ IH _ E2) as [Hb Hd].
    cbn [impl_item_ok drop_where_impl_item]. rewrite Hd. parts.
  - intros k ts y H. cbn [visit_impl_item] in H. run H. injection H as <-. cbn [impl_item_ok drop_where_impl_item]. parts.
Qed.
Lemma stmt_visited s : FS s.
Proof.
  intros y H. destruct s as [i|ts].
  - pose proof (item_visited i) as IH. unfold fit in IH. destruct i; cbn [visit_stmt] in H; run H; injection H as <-.
    all: try (split; [exact (other_visited _ _ E)|reflexivity]).
    all: destruct (IH _ E) as [H1 H2]; cbn [drop_where_stmt]; rewrite H2; split; [|reflexivity].
    all: try (rewrite visit_fn in E || rewrite visit_trait in E || rewrite visit_impl in E); cbn [visit_item] in E; run E; injection E as <-; exact H1.
  - cbn [visit_stmt] in H. run H. injection H as <-. split; [exact (other_visited _ _ E)|reflexivity].
Qed.
Lemma block_visited l l' : visit_block O lookup reparse l = Ok l' -> fold_right and True (map (stmt_ok O reparse) l') /\ map drop_where_stmt l' = l'.
Proof. intros H. eapply children_visited; [|exact H]. apply Forall_forall. intros s _. apply stmt_visited. Qed.
End Visited.

Section Again.
Context (O : oracles) (reparse : kind -> list tt -> option (list tt)) (F : faithful O reparse).

Lemma visited_twice f g l l' l'' : (forall k, In k item_keywords -> g k = None) ->
  visit_block O f reparse l = Ok l' -> visit_block O g reparse l' = Ok l'' -> block_tokens l'' = substituted O g (block_tokens l').
Proof.
  intros Hk H K. destruct (block_visited O f reparse F l l' H) as [_ Hd]. rewrite (block_emit O g reparse F Hk _ _ K), Hd. reflexivity.
Qed.
Context (I : indifferent O reparse).
Lemma visited_again f g l l' : (forall k, In k item_keywords -> g k = None) ->
  visit_block O f reparse l = Ok l' -> unaliased O g (block_tokens l') ->
  exists l'', visit_block O g reparse l' = Ok l'' /\ block_tokens l'' = respelled O (block_tokens l').
Proof.
  intros Hk H Hu. destruct (block_visited O f reparse F l l' H) as [Ho Hd]. pose proof (block_respelled O g reparse I F l' Hk Ho) as K. rewrite Hd in K. exact (K Hu).
Qed.
Lemma visited_same f l l' : (forall k, In k item_keywords -> f k = None) ->
  (forall x v y, f x = Some v -> In (TIdent y) (leaves (to_tokens v)) -> f y = None) ->
  visit_block O f reparse l = Ok l' ->
  (forall s p, In (TLit (LStr s p)) (leaves (block_tokens l')) -> ~ In 37%N s) ->
  exists l'', visit_block O f reparse l' = Ok l'' /\ block_tokens l'' = respelled O (block_tokens l').
Proof.
  intros Hk Hc H Hs. apply (visited_again f f l l' Hk H). split.
  - intros x Hx. rewrite (block_emit O f reparse F Hk _ _ H), substituted_leaves in Hx. apply in_flat_map in Hx as (t & Hl & Ht).
    destruct t as [y|c j|lt|d g].
    + destruct (f y) as [v|] eqn:E; [exact (Hc _ _ _ E Ht)|]. destruct Ht as [[= ->]|[]]. exact E.
    + destruct Ht as [Ht|[]]; discriminate.
    + destruct (parse_lit_str O [TLit lt]) as [[v p]|]; destruct Ht as [Ht|[]]; discriminate.
    + exfalso. exact (leaves_no_group _ _ _ Hl).
  - intros lt c p Hin Hp. pose proof (faithful_str _ _ F _ _ _ Hp) as [= ->]. exact (Hs _ _ Hin).
Qed.
End Again.
