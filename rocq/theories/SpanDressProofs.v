(** The parsers made by SpanDress.v are parsers with spans as the theorems want them. *)
From Coq Require Import String.
From Verif Require Import Base BaseFacts Token Types Values Item Deprecation Interpreter Parse ConcreteEq SpanTokens SpanItem SpanVisitor SpanDeprecation SpanInstance SpanParse SpanMacro
  SpecSpans SpecSpanEval SpecSpanItem SpecSpanMacro SpanItemProofs SpanDeprecationProofs SpanPlaces SpanDress.
Open Scope list_scope.

Section Dress.
Context (U : span -> Prop) (H0 : U call_site).
Notation stream_in := (stream_in U).

Definition ok {A B} (er : B -> A) (inn : B -> Prop) (a : A) (r : B * list stt) : Prop :=
  er (fst r) = a /\ inn (fst r) /\ stream_in (snd r).

Lemma firstn_in k ts : stream_in ts -> stream_in (firstn k ts).
Proof. revert k. induction ts as [|t ts IH]; intros [|k] H; try constructor. cbn. apply stream_cons in H as [H1 H2]. apply stream_cons. split; [exact H1|apply IH, H2]. Qed.
Lemma placeless_in ts : stream_in (map placeless ts).
Proof.
  apply Forall_forall. intros s H. apply in_flat_map in H as (t & Ht & H). apply in_map_iff in Ht as (u & <- & _). apply spans_placeless in H as ->. exact H0.
Qed.
Lemma erase_placeless_all ts : map erase (map placeless ts) = ts.
Proof. rewrite map_map. rewrite (map_ext _ (fun x => x) erase_placeless). apply map_id. Qed.
Lemma dress_tokens_ok ts l : stream_in l -> ok (map erase) stream_in ts (dress_tokens ts l).
Proof.
  intros H. unfold dress_tokens, ok. cbn [fst snd]. split; [|split; [|apply skipn_in, H]]; destruct (tt_eqb _ _) eqn:E.
  - apply tt_eqb_eq in E. injection E as E. symmetry. exact E.
  - apply erase_placeless_all.
  - apply firstn_in, H.
  - apply placeless_in.
Qed.
Lemma next_span_ok l : stream_in l -> U (fst (next_span l)) /\ stream_in (snd (next_span l)).
Proof. intros H. destruct l as [|t l]; [split; [exact H0|constructor]|]. apply stream_cons in H as [H1 H2]. split; [exact (span_in U t H1)|exact H2]. Qed.
Lemma flag_span_ok b l : stream_in l -> ok is_some (opt_in U) b (flag_span b l).
Proof.
  intros H. unfold flag_span. destruct b; [|repeat split; exact H]. destruct (next_span_ok l H) as [H1 H2]. destruct (next_span l). repeat split; assumption.
Qed.
Lemma enter_ok l : stream_in l -> U (fst (fst (enter l))) /\ stream_in (snd (fst (enter l))) /\ stream_in (snd (enter l)).
Proof.
  intros H. destruct l as [|t l]; [repeat split; try exact H0; constructor|]. apply stream_cons in H as [H1 H2].
  destruct t as [? ?|? ? ?|? ?|d ts s]; [repeat split; try exact H0; try exact H2; constructor..|]. apply group_in in H1 as (_ & _ & G1 & G2). repeat split; assumption.
Qed.
Lemma dress_name_ok x l : stream_in l -> ok fst (fun p => U (snd p)) x (dress_name x l).
Proof. intros H. unfold dress_name. destruct (next_span_ok l H) as [H1 H2]. destruct (next_span l). repeat split; assumption. Qed.

Section Threaded.
Context {A B : Type} (f : A -> list stt -> B * list stt) (er : B -> A) (inn : B -> Prop).
Lemma threaded_ok l : Forall (fun a => forall ts, stream_in ts -> ok er inn a (f a ts)) l ->
  forall ts, stream_in ts -> ok (map er) (Forall inn) l (threaded f l ts).
Proof.
  induction 1 as [|a l Ha _ IH]; intros ts H; [repeat split; [constructor|exact H]|]. cbn [threaded]. destruct (Ha ts H) as (H1 & H2 & H3).
  destruct (f a ts) as [b ts1]. cbn [fst snd] in *. destruct (IH ts1 H3) as (I1 & I2 & I3). destruct (threaded f l ts1) as [bs ts2]. cbn in *. subst.
  repeat split; [constructor; assumption|assumption].
Qed.
Lemma separated_ok l : Forall (fun a => forall ts, stream_in ts -> ok er inn a (f a ts)) l ->
  forall ts, stream_in ts -> map er (fst (separated f l ts)) = l /\ Forall inn (fst (separated f l ts)) /\ Forall U (snd (separated f l ts)).
Proof.
  induction 1 as [|a l Ha _ IH]; intros ts H; [repeat split; constructor|]. cbn [separated]. destruct (Ha ts H) as (H1 & H2 & H3).
  destruct (f a ts) as [b ts1]. cbn [fst snd] in *. destruct (next_span_ok ts1 H3) as [S1 S2]. destruct (next_span ts1) as [s ts2]. cbn [fst snd] in *.
  destruct (IH ts2 S2) as (I1 & I2 & I3). destruct (separated f l ts2) as [bs ss]. cbn in *. subst. repeat split; constructor; assumption.
Qed.
End Threaded.

Ltac step :=
  match goal with
  | H : stream_in ?l |- context [dress_tokens ?ts ?l] => destruct (dress_tokens_ok ts l H) as (? & ? & ?); destruct (dress_tokens ts l); cbn [fst snd] in *
  | H : stream_in ?l |- context [next_span ?l] => destruct (next_span_ok l H) as (? & ?); destruct (next_span l); cbn [fst snd] in *
  | H : stream_in ?l |- context [flag_span ?b ?l] => destruct (flag_span_ok b l H) as (? & ? & ?); destruct (flag_span b l); cbn [fst snd] in *
  | H : stream_in ?l |- context [enter ?l] => destruct (enter_ok l H) as (? & ? & ?); destruct (enter l) as [[? ?] ?]; cbn [fst snd] in *
  | H : stream_in ?l |- context [dress_name ?x ?l] => destruct (dress_name_ok x l H) as (? & ? & ?); destruct (dress_name x l); cbn [fst snd] in *
  end.

Lemma dress_attr_ok a l : stream_in l -> ok erase_attr (attr_in U) a (dress_attr a l).
Proof.
  intros H. destruct a as [i m]. unfold dress_attr. cbn [is_inner meta]. do 4 step. split; [unfold erase_attr; cbn; congruence|]. split; [|assumption].
  repeat split; assumption.
Qed.
Lemma dress_attrs_ok a : forall l1 l2, stream_in l1 -> stream_in l2 -> erase_attrs (dress_attrs a l1 l2) = a /\ attrs_in U (dress_attrs a l1 l2).
Proof.
  induction a as [|x a IH]; intros l1 l2 H1 H2; [repeat split; constructor|]. cbn [dress_attrs].
  destruct (is_inner x); [destruct (dress_attr_ok x l2 H2) as (? & ? & ?); destruct (dress_attr x l2)|destruct (dress_attr_ok x l1 H1) as (? & ? & ?); destruct (dress_attr x l1)];
    cbn [fst snd] in *; [destruct (IH l1 _ H1 H4) as [I1 I2]|destruct (IH _ l2 H4 H2) as [I1 I2]]; (split; [cbn; f_equal; assumption|constructor; assumption]).
Qed.
Lemma dress_all_attrs_ok a l : stream_in l -> ok erase_attrs (attrs_in U) a (dress_all_attrs a l).
Proof. apply (threaded_ok dress_attr erase_attr (attr_in U)). apply Forall_forall. intros x _ ts. apply dress_attr_ok. Qed.
Lemma nil_in : stream_in [].
Proof. constructor. Qed.
Lemma all_Forall {A} (Q : A -> Prop) l : Forall Q l -> all Q l.
Proof. induction 1; [exact I|split; assumption]. Qed.

Ltac step2 :=
  first
  [ step
  | match goal with
    | H : stream_in ?l |- context [dress_all_attrs ?a ?l] => destruct (dress_all_attrs_ok a l H) as (? & ? & ?); destruct (dress_all_attrs a l); cbn [fst snd] in *
    end ].
Ltac close := repeat match goal with |- _ /\ _ => split end; try assumption; try (cbn; congruence).

Lemma dress_field_ok f l : stream_in l -> ok erase_field (field_in U) f (dress_field f l).
Proof.
  intros H. destruct f as [a v x t]. unfold dress_field. cbn [f_attrs f_vis f_ident f_ty]. do 2 step2. destruct x as [x|]; repeat step2;
    (split; [unfold erase_field; cbn; congruence|]); (split; [|assumption]); repeat split; assumption.
Qed.
Lemma fields_each l : Forall (fun a => forall ts, stream_in ts -> ok erase_field (field_in U) a (dress_field a ts)) l.
Proof. apply Forall_forall. intros x _ ts. apply dress_field_ok. Qed.
Lemma dress_fields_ok f l : stream_in l -> ok erase_fields (fields_in U) f (dress_fields f l).
Proof.
  intros H. destruct f as [fs t|fs t|]; [| |repeat split; exact H]; cbn [dress_fields]; step;
    (match goal with H : stream_in ?l |- context [separated dress_field ?fs ?l] => destruct (separated_ok dress_field erase_field (field_in U) fs (fields_each fs) l H) as (? & ? & ?); destruct (separated dress_field fs l) end);
    cbn [fst snd] in *; (split; [cbn; congruence|]); (split; [|assumption]); repeat split; assumption.
Qed.
Lemma dress_variant_ok v l : stream_in l -> ok erase_variant (variant_in U) v (dress_variant v l).
Proof.
  intros H. destruct v as [a x f d]. unfold dress_variant. cbn [v_attrs v_ident v_fields v_disc]. do 2 step2.
  match goal with H : stream_in ?l |- context [dress_fields ?f ?l] => destruct (dress_fields_ok f l H) as (? & ? & ?); destruct (dress_fields f l) end. cbn [fst snd] in *.
  destruct d as [e|]; repeat step2; (split; [unfold erase_variant; cbn; congruence|]); (split; [|assumption]); repeat split; assumption.
Qed.

Ltac item :=
  repeat first
  [ step
  | match goal with
    | H : stream_in ?l |- context [after_outer ?a ?l] =>
        let X := fresh in assert (X : stream_in (after_outer a l)) by (apply skipn_in, H); revert X; generalize (after_outer a l); intros ? X
    | H : stream_in ?l |- context [after_inner ?a ?l] =>
        let X := fresh in assert (X : stream_in (after_inner a l)) by (apply skipn_in, H); revert X; generalize (after_inner a l); intros ? X
    | H : stream_in ?l |- context [dress_fields ?f ?l] => destruct (dress_fields_ok f l H) as (? & ? & ?); destruct (dress_fields f l); cbn [fst snd] in *
    end ].
Ltac attrs := match goal with
  | H1 : stream_in ?l1, H2 : stream_in ?l2 |- context [dress_attrs ?a ?l1 ?l2] => destruct (dress_attrs_ok a l1 l2 H1 H2) as (? & ?)
  | H1 : stream_in ?l1 |- context [dress_attrs ?a ?l1 []] => destruct (dress_attrs_ok a l1 [] H1 nil_in) as (? & ?)
  end.
Ltac inside f er inn Hb :=
  match goal with H : stream_in ?l |- context [threaded f ?b ?l] => destruct (threaded_ok f er inn b Hb l H) as (? & ? & ?); destruct (threaded f b l) end; cbn [fst snd] in *.
Ltac fin := split; [cbn [fst erase_item erase_stmt erase_trait_item erase_impl_item]; unfold erase_generics; cbn [pg_params pg_where]; f_equal; try assumption; try congruence
                   |split; [cbn [fst item_in stmt_in trait_item_in impl_item_in]; close; try (apply all_Forall; assumption); try (split; assumption)|assumption]].

Lemma dress_item_ok : forall i l, stream_in l -> ok erase_item (item_in U) i (dress_item i l).
Proof.
  apply (item_ind' (fun i => forall l, stream_in l -> ok erase_item (item_in U) i (dress_item i l))
                   (fun i => forall l, stream_in l -> ok erase_stmt (stmt_in U) i (dress_stmt i l))
                   (fun i => forall l, stream_in l -> ok erase_trait_item (trait_item_in U) i (dress_trait_item i l))
                   (fun i => forall l, stream_in l -> ok erase_impl_item (impl_item_in U) i (dress_impl_item i l))).
  - intros a v s b Hb l H. cbn [dress_item]. item. attrs. inside dress_stmt erase_stmt (stmt_in U) Hb. fin.
  - intros a v x g f l H. destruct g as [gp gw]. cbn [dress_item g_params g_where]. destruct f as [fs t|fs t|]; item; attrs; fin.
  - intros a v x g vs t l H. destruct g as [gp gw]. cbn [dress_item g_params g_where]. item. attrs.
    match goal with H : stream_in ?l |- context [separated dress_variant ?fs ?l] =>
      destruct (separated_ok dress_variant erase_variant (variant_in U) fs (proj2 (Forall_forall _ _) (fun x _ ts => dress_variant_ok x ts)) l H) as (? & ? & ?); destruct (separated dress_variant fs l) end.
    cbn [fst snd] in *. fin.
  - intros a v x g fs t l H. destruct g as [gp gw]. cbn [dress_item g_params g_where]. item. attrs.
    match goal with H : stream_in ?l |- context [separated dress_field ?fs ?l] =>
      destruct (separated_ok dress_field erase_field (field_in U) fs (fields_each fs) l H) as (? & ? & ?); destruct (separated dress_field fs l) end.
    cbn [fst snd] in *. fin.
  - intros a v u au x g s t items Hi l H. destruct g as [gp gw]. cbn [dress_item g_params g_where].
    assert (X : forall q, stream_in q -> U (fst (colon_span s q)) /\ stream_in (snd (colon_span s q))).
    { intros q Hq. destruct s; [split; [exact H0|exact Hq]|apply next_span_ok, Hq]. }
    item. match goal with |- context [colon_span s ?q] => match goal with H : stream_in q |- _ => specialize (X q H); destruct (colon_span s q) as [c q7] end end.
    destruct X as [Xc X7]. cbn [fst snd] in *.
    destruct (separated_ok dress_tokens (map erase) stream_in s (proj2 (Forall_forall _ _) (fun x _ ts => dress_tokens_ok x ts)) q7 X7) as (? & ? & ?). destruct (separated dress_tokens s q7).
    cbn [fst snd] in *. assert (X8 := skipn_in U (List.length (punctuated (fun b => b) (sym "+") t s)) q7 X7). revert X8. generalize (skipn (List.length (punctuated (fun b => b) (sym "+") t s)) q7). intros q8 X8.
    item. attrs. inside dress_trait_item erase_trait_item (trait_item_in U) Hi. fin.
  - intros a d u g tr ty items Hi l H. destruct g as [gp gw]. cbn [dress_item g_params g_where]. destruct tr as [[bang path]|]; item; attrs; inside dress_impl_item erase_impl_item (impl_item_in U) Hi; fin.
    1: cbn; congruence. all: try (cbn; repeat split; assumption). all: exact I.
  - intros a v u x items Hi l H. cbn [dress_item]. item. attrs. inside dress_item erase_item (item_in U) Hi. fin.
  - intros a v u x l H. cbn [dress_item]. item. attrs. fin.
  - intros a u abi items l H. cbn [dress_item].
    destruct abi as [x|]; item; attrs; inside dress_tokens (map erase) (SpecSpanItem.stream_in U) (proj2 (Forall_forall (fun a => forall ts, stream_in ts -> ok (map erase) stream_in a (dress_tokens a ts)) items) (fun x _ ts => dress_tokens_ok x ts)); fin.
  - intros ts l H. cbn [dress_item]. item. fin.
  - intros i IH l H. cbn [dress_stmt]. destruct (IH l H) as (? & ? & ?). destruct (dress_item i l). cbn [fst snd] in *. fin.
  - intros ts l H. cbn [dress_stmt]. item. fin.
  - intros a s b Hb l H. cbn [dress_trait_item]. item. attrs. inside dress_stmt erase_stmt (stmt_in U) Hb. fin.
  - intros a s l H. cbn [dress_trait_item]. item. attrs. fin.
  - intros k ts l H. cbn [dress_trait_item]. item. fin.
  - intros a v d s b Hb l H. cbn [dress_impl_item]. item. attrs. inside dress_stmt erase_stmt (stmt_in U) Hb. fin.
  - intros k ts l H. cbn [dress_impl_item]. item. fin.
Qed.
Lemma dress_stmt_ok s l : stream_in l -> ok erase_stmt (stmt_in U) s (dress_stmt s l).
Proof.
  intros H. destruct s as [i|ts]; cbn [dress_stmt].
  - destruct (dress_item_ok i l H) as (? & ? & ?). destruct (dress_item i l). cbn [fst snd] in *. fin.
  - item. fin.
Qed.
Lemma dress_block_ok b l : stream_in l -> map erase_stmt (dress_block b l) = b /\ block_in U (dress_block b l).
Proof.
  intros H. destruct (threaded_ok dress_stmt erase_stmt (stmt_in U) b (proj2 (Forall_forall _ _) (fun x _ ts => dress_stmt_ok x ts)) l H) as (H1 & H2 & _).
  split; [exact H1|apply all_Forall, H2].
Qed.
Lemma attrs_stream a : attrs_in U a -> stream_in (pattrs_tokens a).
Proof.
  induction 1 as [|x l (H1 & H2 & H3 & H4) _ IH]; [constructor|]. unfold pattrs_tokens. cbn [flat_map]. apply stream_app. split; [|exact IH].
  unfold pattr_tokens. apply stream_cons. split; [constructor; [exact H1|constructor]|]. apply stream_app. split; [destruct (pa_inner x); [repeat constructor; exact H2|constructor]|].
  apply stream_sgroup. auto.
Qed.
Lemma dress_tree_ok : forall t l, stream_in l -> ok erase_tree (fun p => stream_in (ptree_tokens p)) t (dress_tree t l).
Proof.
  induction t as [t|d c IH|a b c IH] using tree_ind'; intros l H; cbn [dress_tree].
  - destruct (dress_tokens_ok [t] l H) as (H1 & H2 & H3). destruct (dress_tokens [t] l) as [ts r]. cbn [fst snd] in *.
    destruct ts as [|t' [|]]; try discriminate H1. injection H1 as H1. split; [cbn; congruence|]. split; [exact H2|exact H3].
  - step. inside dress_tree erase_tree (fun p => stream_in (ptree_tokens p)) IH. split; [cbn; congruence|]. split; [|assumption]. apply stream_sgroup. split; [assumption|].
    clear -H5. match goal with H : Forall _ ?l |- _ => induction H; [constructor|]; cbn; apply stream_app; auto end.
  - step2. inside dress_tree erase_tree (fun p => stream_in (ptree_tokens p)) IH. split; [cbn; congruence|]. split; [|assumption]. cbn. apply stream_app. split; [apply attrs_stream; assumption|].
    clear -H5. match goal with H : Forall _ ?l |- _ => induction H; [constructor|]; cbn; apply stream_app; auto end.
Qed.
End Dress.

Section Dressed.
Context (P : parsers) (Y : syntax).
Let anywhere (s : span) : Prop := True.
Lemma anywhere_stream ts : stream_in anywhere ts.
Proof. apply Forall_forall. intros; exact I. Qed.
Lemma dressed_spanless_parsers : spanless_parsers P (dressed_parsers P).
Proof.
  assert (Hn : forall p ts, option_map (erase_node (map erase)) (dress_node p ts) = p (map erase ts)).
  { intros p ts. unfold dress_node. destruct (p (map erase ts)) as [[[n k] u]|]; [|reflexivity]. cbn [option_map erase_node].
    destruct (dress_tokens_ok anywhere I n ts (anywhere_stream ts)) as (-> & _). destruct u; reflexivity. }
  split; intros ts; try apply Hn.
  - cbn. unfold dress_lit. destruct (pre_lit_int P _) as [[[a b] k]|]; reflexivity.
  - cbn. unfold dress_lit. destruct (pre_lit_str P _) as [[[a b] k]|]; reflexivity.
  - cbn [spre_block dressed_parsers]. destruct (pre_block P _) as [[[b k] u]|]; [|reflexivity]. cbn [option_map erase_node].
    destruct (dress_block_ok anywhere I b (snd (fst (enter ts))) (anywhere_stream _)) as (-> & _). destruct u; reflexivity.
Qed.
(** No literal is empty. *)
Definition literals_nonempty : Prop := pre_lit_int P [] = None /\ pre_lit_str P [] = None.
Lemma dressed_inherited_parsers : forall SO, literals_nonempty -> inherited_parsers SO (dressed_parsers P).
Proof.
  intros SO [N1 N2].
  assert (Hu : forall (U : span -> Prop) ts u, U call_site -> stream_in U ts -> opt_in (message_in U) (left_unread ts u)).
  { intros U ts u H0 H. destruct u; [|exact I]. apply new_in. apply place_in; assumption. }
  assert (Hn : forall p ts x, dress_node p ts = Some x -> SpecSpanMacro.node_in SO ts SpecSpanItem.stream_in x).
  { intros p ts x H U H0 _ Hts. unfold dress_node in H. destruct (p (map erase ts)) as [[[n k] u]|]; [|discriminate H]. injection H as <-.
    split; [apply (dress_tokens_ok U H0 n ts Hts)|apply Hu; assumption]. }
  assert (Hf : forall (p : list tt -> option (str * str * nat)) ts d r s k, p [] = None -> dress_lit (p (map erase ts)) ts = Some (d, r, s, k) -> In s (spans ts)).
  { intros p ts d r s k Hp H. destruct ts as [|t ts]; [cbn in H; rewrite Hp in H; discriminate H|].
    unfold dress_lit in H. destruct (p (map erase (t :: ts))) as [[[a b] j]|]; [|discriminate H]. injection H as _ _ <- _. unfold spans. cbn. apply in_or_app. left. destruct t; cbn; auto. }
  split; try (intros *; apply Hn).
  - intros ts d r s k H U _ Hts. apply (Hf (pre_lit_int P)) in H; [|exact N1]. unfold SpecSpanItem.stream_in in Hts. rewrite Forall_forall in Hts. exact (Hts s H).
  - intros ts d r s k. apply (Hf (pre_lit_str P)), N2.
  - intros ts x H U H0 _ Hts. cbn in H. destruct (pre_block P (map erase ts)) as [[[b k] u]|]; [|discriminate H]. injection H as <-. split; [|apply Hu; assumption].
    apply (dress_block_ok U H0). apply (enter_ok U H0 ts Hts).
  - intros U ts H0 _ Hts. constructor; [|constructor]. apply error_in; assumption.
Qed.
Lemma dressed_spanless_syntax : spanless_syntax Y (dressed_syntax Y).
Proof.
  split.
  - intros k ts. cbn. unfold same_tokens. destruct (reparse Y k _) as [r|]; [|reflexivity]. cbn [option_map]. f_equal.
    destruct (tt_eqb _ _) eqn:E; [apply tt_eqb_eq in E; injection E as E; symmetry; exact E|apply erase_placeless_all].
  - intros ts. cbn [sas_forest dressed_syntax].
    apply (threaded_ok anywhere dress_tree erase_tree (fun p => stream_in anywhere (ptree_tokens p)) _ (proj2 (Forall_forall _ _) (fun x _ l => dress_tree_ok anywhere I x l)) ts (anywhere_stream ts)).
Qed.
Lemma dressed_inherited_syntax : inherited_syntax (dressed_syntax Y).
Proof.
  split.
  - intros k ts r. cbn. unfold same_tokens. destruct (reparse Y k (map erase ts)) as [q|]; [|discriminate]. cbn [option_map]. intros H. injection H as <-.
    match goal with |- context [if ?b then _ else _] => destruct b end; [apply incl_tl, incl_refl|].
    intros s Hs. left. apply in_flat_map in Hs as (t & Ht & Hs). apply in_map_iff in Ht as (u & <- & _). symmetry. eapply spans_placeless; exact Hs.
  - intros ts. set (U := fun s => In s (call_site :: spans ts)). assert (H0 : U call_site) by (left; reflexivity).
    assert (Hts : stream_in U ts) by (apply Forall_forall; intros s Hs; right; exact Hs).
    destruct (threaded_ok U dress_tree erase_tree (fun p => stream_in U (ptree_tokens p)) _ (proj2 (Forall_forall _ (as_forest Y (map erase ts))) (fun x _ l => dress_tree_ok U H0 x l)) ts Hts) as (_ & H & _).
    cbn [sas_forest dressed_syntax]. intros s Hs. unfold pforest_tokens in Hs. revert Hs. induction H as [|p l Hp _ IH]; [contradiction|].
    cbn. unfold spans. rewrite flat_map_app. intros Hs. apply in_app_or in Hs as [Hs|Hs]; [|apply IH, Hs]. unfold stream_in in Hp. rewrite Forall_forall in Hp. apply (Hp _ Hs).
Qed.
End Dressed.
