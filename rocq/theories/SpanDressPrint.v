(** What is read from tokens with spans prints as those tokens, with their spans, if without
    spans it prints as the tokens. *)
From Coq Require Import String.
From Verif Require Import Base BaseFacts Token Types Values Item SpecItem Deprecation SpecDeprecation Interpreter ConcreteEq SpanTokens SpanWalker SpanItem SpanVisitor SpanDeprecation SpanInstance SpanParse SpanMacro SpanDress
  SpecSpans SpecSpanCode SpanCodeProofs.
Open Scope list_scope.

Lemma lit_eqb_refl l : lit_eqb l l = true.
Proof. destruct l; cbn; rewrite ?str_eqb_refl; reflexivity. Qed.
Lemma tt_eqb_refl t : tt_eqb t t = true.
Proof.
  induction t as [x|c j|l|d l IH] using tt_ind'; cbn.
  - apply str_eqb_refl.
  - rewrite N.eqb_refl. destruct j; reflexivity.
  - apply lit_eqb_refl.
  - apply andb_true_intro. split; [destruct d; reflexivity|]. induction IH as [|x l H _ IH]; [reflexivity|]. rewrite H. exact IH.
Qed.

(** ** Cutting a stream *)
Lemma cut_group t d ts : erase t = TGroup d ts -> exists l s, t = SGroup d l s /\ map erase l = ts.
Proof. destruct t; cbn; intros H; try discriminate. injection H as <- <-. eauto. Qed.
Lemma cut_ident t x : erase t = TIdent x -> exists s, t = SIdent x s.
Proof. destruct t; cbn; intros H; try discriminate. injection H as <-. eauto. Qed.
Lemma cut_punct t c j : erase t = TPunct c j -> exists s, t = SPunct c j s.
Proof. destruct t; cbn; intros H; try discriminate. injection H as <- <-. eauto. Qed.
Lemma cut_lit t l : erase t = TLit l -> exists s, t = SLit l s.
Proof. destruct t; cbn; intros H; try discriminate. injection H as <-. eauto. Qed.
Ltac cut_ := repeat match goal with
  | H : map erase _ = _ ++ _ |- _ => let l1 := fresh "p" in let l2 := fresh "q" in let H1 := fresh "Hp" in let H2 := fresh "Hq" in
      apply map_eq_app in H as (l1 & l2 & -> & H1 & H2)
  | H : map erase _ = _ :: _ |- _ => let t := fresh "t" in let l2 := fresh "q" in let H1 := fresh "Ht" in let H2 := fresh "Hq" in
      apply map_eq_cons in H as (t & l2 & -> & H1 & H2)
  | H : map erase _ = [] |- _ => apply map_eq_nil in H; subst
  | H : erase _ = TGroup _ _ |- _ => let l := fresh "g" in let s := fresh "z" in let H' := fresh "Hg" in apply cut_group in H as (l & s & -> & H')
  | H : erase _ = TIdent _ |- _ => let s := fresh "z" in apply cut_ident in H as (s & ->)
  | H : erase _ = kw _ |- _ => let s := fresh "z" in apply cut_ident in H as (s & ->)
  | H : erase _ = TPunct _ _ |- _ => let s := fresh "z" in apply cut_punct in H as (s & ->)
  | H : erase _ = sym _ |- _ => let s := fresh "z" in apply cut_punct in H as (s & ->)
  | H : erase _ = TLit _ |- _ => let s := fresh "z" in apply cut_lit in H as (s & ->)
  end.

(** ** Reading *)
Definition reads {A B} (f : A -> list stt -> B * list stt) (toks : A -> list tt) (print : B -> list stt) (a : A) : Prop :=
  forall l rest, map erase l = toks a -> exists b, f a (l ++ rest) = (b, rest) /\ C (print b) = C l.

Lemma firstn_length_app {A} (l r : list A) : firstn (List.length l) (l ++ r) = l.
Proof. induction l as [|x l IH]; [destruct r; reflexivity|]. cbn. rewrite IH. reflexivity. Qed.
Lemma skipn_length_app {A} (l r : list A) : skipn (List.length l) (l ++ r) = r.
Proof. induction l as [|x l IH]; [reflexivity|exact IH]. Qed.
Lemma tokens_here l rest ts : map erase l = ts -> dress_tokens ts (l ++ rest) = (l, rest).
Proof.
  intros <-. unfold dress_tokens. rewrite map_length, firstn_length_app, skipn_length_app, tt_eqb_refl. reflexivity.
Qed.
Lemma tokens_end l ts : map erase l = ts -> fst (dress_tokens ts l) = l.
Proof. intros H. rewrite <- (app_nil_r l) at 1. rewrite (tokens_here l [] ts H). reflexivity. Qed.
Lemma tokens_read ts : reads dress_tokens (fun ts => ts) (fun ts => ts) ts.
Proof. intros l rest H. exists l. split; [exact (tokens_here l rest ts H)|reflexivity]. Qed.

Section Many.
Context {A B : Type} (f : A -> list stt -> B * list stt) (toks : A -> list tt) (print : B -> list stt).
Lemma threaded_read l : Forall (reads f toks print) l -> reads (threaded f) (flat_map toks) (flat_map print) l.
Proof.
  induction 1 as [|a l Ha _ IH]; intros ts rest H; cbn [flat_map] in H; cut_.
  - exists []. split; reflexivity.
  - cbn [threaded]. rewrite <- app_assoc. destruct (Ha _ (q ++ rest) Hp) as (b & -> & Hb). destruct (IH _ rest Hq) as (bs & -> & Hbs).
    exists (b :: bs). split; [reflexivity|]. cbn [flat_map]. rewrite !C_app, Hb, Hbs. reflexivity.
Qed.
Lemma threaded_end l ts : Forall (reads f toks print) l -> map erase ts = flat_map toks l -> C (flat_map print (fst (threaded f l ts))) = C ts.
Proof. intros H E. destruct (threaded_read l H ts [] E) as (b & Hb & Hc). rewrite app_nil_r in Hb. rewrite Hb. exact Hc. Qed.
Lemma separated_read (x : string) (t : bool) l : Forall (reads f toks print) l -> forall ts rest, map erase ts = punctuated toks (sym x) t l ->
  let (bs, ss) := separated f l (ts ++ rest) in C (spunctuated print x ss t bs) = C ts /\ List.length bs = List.length l.
Proof.
  induction 1 as [|a l Ha _ IH]; intros ts rest H; [cbn in H; cut_; split; reflexivity|].
  destruct l as [|a' l].
  - cbn [punctuated] in H. cut_. cbn [separated]. rewrite <- app_assoc. destruct (Ha _ (q ++ rest) Hp) as (b & -> & Hb).
    destruct t; cut_; cbn [next_span map app hd tl spunctuated]; rewrite !C_app, Hb; split; reflexivity.
  - change (map erase ts = toks a ++ sym x :: punctuated toks (sym x) t (a' :: l)) in H. cut_.
    rewrite <- app_assoc. cbn [app]. set (al := a' :: l) in *. cbn [separated]. match goal with X : map erase ?y = toks a |- context [f a (?y ++ ?r)] => destruct (Ha y r X) as (b & -> & Hb) end.
    cbn [app next_span map hd tl]. match goal with X : map erase ?y = punctuated _ _ _ _ |- _ => specialize (IH y rest X); destruct (separated f al (y ++ rest)) as [bs ss] end. destruct IH as [IH1 IH2]. subst al.
    destruct bs as [|b' bs]; [discriminate|]. split; [|cbn [List.length] in *; congruence]. change (spunctuated print x (span_of (SPunct (hd 0%N (txt x)) false z) :: ss) t (b :: b' :: bs)) with
      (print b ++ ssym x z :: spunctuated print x ss t (b' :: bs)). rewrite !C_app, !C_cons, Hb, IH1. reflexivity.
Qed.
End Many.

(** ** Attributes *)
Lemma attr_read a : reads dress_attr attr_tokens pattr_tokens a.
Proof.
  intros l rest H. unfold attr_tokens in H. unfold dress_attr. destruct a as [[|] m]; cbn [is_inner meta app] in *; cut_;
    cbn [app next_span map hd tl flag_span enter is_inner]; eexists; (split; [reflexivity|]); unfold pattr_tokens; cbn [pa_pound pa_inner pa_bracket pa_meta app];
    rewrite !C_cons, !collapsed_group; rewrite (tokens_end _ _ Hg); reflexivity.
Qed.
Lemma all_attrs_read l : reads dress_all_attrs attrs_tokens pattrs_tokens l.
Proof. apply threaded_read. apply Forall_forall. intros a _. apply attr_read. Qed.
Lemma attr_side a l : is_some (pa_inner (fst (dress_attr a l))) = is_inner a.
Proof.
  unfold dress_attr. cbn [next_span]. destruct (is_inner a); cbn [flag_span next_span].
  - destruct (enter _) as [[b i] r]. reflexivity.
  - destruct (enter _) as [[b i] r]. reflexivity.
Qed.
Lemma outer_read a : forall l rest inside, map erase l = attrs_tokens (outer a) -> C (pattrs_tokens (pouter (dress_attrs a (l ++ rest) inside))) = C l.
Proof.
  induction a as [|x a IH]; intros l rest inside H; cbn [outer filter] in H; [cbn in H; cut_; reflexivity|]. cbn [dress_attrs].
  destruct (is_inner x) eqn:E; cbn [negb] in H.
  - pose proof (attr_side x inside) as Hs. destruct (dress_attr x inside) as [p i']. cbn [fst] in Hs. unfold pouter. cbn [filter]. rewrite Hs, E. cbn [negb]. apply IH, H.
  - cbn [attrs_tokens flat_map] in H. cut_. rewrite <- app_assoc. pose proof (attr_side x (p ++ q ++ rest)) as Hs. destruct (attr_read x _ (q ++ rest) Hp) as (b & Eb & Hb).
    rewrite Eb in *. cbn [fst] in Hs. unfold pouter. cbn [filter]. rewrite Hs, E. cbn [negb pattrs_tokens flat_map]. rewrite !C_app, Hb. f_equal. apply IH, Hq.
Qed.
Lemma inner_read a : forall l rest outside, map erase l = attrs_tokens (inner a) -> C (pattrs_tokens (pinner (dress_attrs a outside (l ++ rest)))) = C l.
Proof.
  induction a as [|x a IH]; intros l rest outside H; cbn [inner filter] in H; [cbn in H; cut_; reflexivity|]. cbn [dress_attrs].
  destruct (is_inner x) eqn:E.
  - cbn [attrs_tokens flat_map] in H. cut_. rewrite <- app_assoc. pose proof (attr_side x (p ++ q ++ rest)) as Hs. destruct (attr_read x _ (q ++ rest) Hp) as (b & Eb & Hb).
    rewrite Eb in *. cbn [fst] in Hs. unfold pinner. cbn [filter]. rewrite Hs, E. cbn [pattrs_tokens flat_map]. rewrite !C_app, Hb. f_equal. apply IH, Hq.
  - pose proof (attr_side x outside) as Hs. destruct (dress_attr x outside) as [p i']. cbn [fst] in Hs. unfold pinner. cbn [filter]. rewrite Hs, E. apply IH, H.
Qed.
Lemma past_outer a l rest : map erase l = attrs_tokens (outer a) -> after_outer a (l ++ rest) = rest.
Proof. intros H. unfold after_outer. rewrite <- H, map_length. apply skipn_length_app. Qed.
Lemma past_inner a l rest : map erase l = attrs_tokens (inner a) -> after_inner a (l ++ rest) = rest.
Proof. intros H. unfold after_inner. rewrite <- H, map_length. apply skipn_length_app. Qed.

Lemma flat_map_self {A} (l : list (list A)) : flat_map (fun x => x) l = List.concat l.
Proof. rewrite flat_map_concat_map, map_id. reflexivity. Qed.

(** ** Items *)
Ltac along := repeat first
  [ rewrite <- app_assoc
  | progress cbn [app next_span map hd tl flag_span enter dress_name span_of fst snd]
  | match goal with
    | H : map erase ?l = attrs_tokens (outer ?a) |- context [after_outer ?a (?l ++ ?r)] => rewrite (past_outer a l r H)
    | H : map erase ?l = attrs_tokens (inner ?a) |- context [after_inner ?a (?l ++ ?r)] => rewrite (past_inner a l r H)
    | H : map erase ?l = ?ts |- context [dress_tokens ?ts (?l ++ ?r)] => rewrite (tokens_here l r ts H)
    | |- context [dress_tokens (map erase ?l) (?l ++ ?r)] => rewrite (tokens_here l r _ eq_refl)
    end ].
Lemma field_read f : reads dress_field field_tokens pfield_tokens f.
Proof.
  intros l rest H. unfold field_tokens in H. cut_. unfold dress_field. rewrite <- !app_assoc.
  match goal with X : map erase ?p = attrs_tokens _ |- context [dress_all_attrs _ (?p ++ ?r)] => destruct (all_attrs_read _ _ r X) as (a & -> & Ha) end.
  destruct (f_ident f) as [x|]; cut_; along; eexists; (split; [reflexivity|]); unfold pfield_tokens; cbn [pf_attrs pf_vis pf_ident pf_ty app]; rewrite !C_app, Ha; reflexivity.
Qed.
Lemma fields_read f : reads dress_fields fields_tokens pfields_tokens f.
Proof.
  intros l rest H. destruct f as [fs t|fs t|]; cbn [fields_tokens] in H; cut_; cbn [dress_fields app enter].
  3:{ exists PUnit. split; reflexivity. }
  all: match goal with X : map erase ?g = punctuated _ _ _ _ |- _ =>
      pose proof (separated_read dress_field field_tokens pfield_tokens "," t fs ltac:(apply Forall_forall; intros; apply field_read) g [] X) as S;
      rewrite app_nil_r in S; destruct (separated dress_field fs g) as [ps ss] end;
    destruct S as [S _]; eexists; (split; [reflexivity|]);
    cbn [pfields_tokens]; unfold ppunctuated; cbn [seps_of sep_spans sep_trailing]; rewrite C_cons, collapsed_group, S; reflexivity.
Qed.
Lemma variant_read v : reads dress_variant variant_tokens pvariant_tokens v.
Proof.
  intros l rest H. unfold variant_tokens in H. cut_. unfold dress_variant. rewrite <- !app_assoc.
  match goal with X : map erase ?p = attrs_tokens _ |- context [dress_all_attrs _ (?p ++ ?r)] => destruct (all_attrs_read _ _ r X) as (a & -> & Ha) end.
  cbn [app dress_name next_span map hd tl]. rewrite <- !app_assoc.
  match goal with X : map erase ?p = fields_tokens _ |- context [dress_fields _ (?p ++ ?r)] => destruct (fields_read _ _ r X) as (fs & -> & Hf) end.
  destruct (v_disc v) as [e|]; cut_; along; eexists; (split; [reflexivity|]); unfold pvariant_tokens; cbn [pv_attrs pv_ident pv_fields pv_disc pname_tokens fst snd app];
    rewrite !C_app, Ha, !C_cons, !C_app, Hf; reflexivity.
Qed.

(** Printing what was read: attributes, the body, the rest token by token. *)
Ltac outers := repeat match goal with
  | X : map erase ?l = attrs_tokens (outer ?a) |- context [dress_attrs ?a (?l ++ ?r) ?i] => rewrite (outer_read a l r i X)
  end.
Ltac inners := repeat match goal with
  | X : map erase ?l = attrs_tokens (inner ?a) |- context [pinner (dress_attrs ?a ?o (?l ++ ?r))] => rewrite (inner_read a l r o X)
  end.
Lemma collapsed_literal d l z : collapsed (SGroup d l z) = SpanItem.sgroup d (ds_entire z) (C l).
Proof. reflexivity. Qed.
Ltac prints := repeat first [rewrite C_app | rewrite C_cons | rewrite collapsed_group | rewrite collapsed_literal]; outers; inners.

Ltac ends := cbn [app map]; repeat rewrite <- app_assoc; reflexivity.

Definition item_reads := reads dress_item item_tokens pitem_tokens.
Definition stmt_reads := reads dress_stmt stmt_tokens pstmt_tokens.
Definition trait_item_reads := reads dress_trait_item trait_item_tokens ptrait_item_tokens.
Definition impl_item_reads := reads dress_impl_item impl_item_tokens pimpl_item_tokens.
Lemma item_read i : item_reads i.
Proof.
  apply (item_ind' item_reads stmt_reads trait_item_reads impl_item_reads); clear i; unfold item_reads, stmt_reads, trait_item_reads, impl_item_reads.
  - (* fn *) intros a v s b IH l rest H. cbn [item_tokens] in H. cut_. cbn [dress_item]. along. eexists. split; [reflexivity|]. cbn [pitem_tokens]. prints.
    match goal with X : map erase ?y = flat_map stmt_tokens b |- _ => rewrite (threaded_end _ _ _ _ _ IH X) end. reflexivity.
  - (* struct *) intros a v x g f l rest H. cbn [item_tokens] in H. destruct f as [fs t|fs t|]; cut_; cbn [dress_item]; along.
    + match goal with X : map erase ?p = fields_tokens ?f |- context [dress_fields ?f (?p ++ ?r)] => destruct (fields_read f p r X) as (f' & Ef & Hf) end. rewrite Ef.
      assert (exists l' t' z', f' = PNamed l' t' z') as (l' & t' & z' & ->).
      { cbn [dress_fields] in Ef. destruct (enter _) as [[g0 i] r]. destruct (separated _ _ _) as [ps ss]. injection Ef as <- _. eauto. }
      eexists. split; [reflexivity|]. cbn [pitem_tokens]. prints. cbn [pg_params pg_where pname_tokens fst snd]. rewrite Hf. reflexivity.
    + match goal with X : map erase ?p = fields_tokens ?f |- context [dress_fields ?f (?p ++ ?r)] => destruct (fields_read f p r X) as (f' & Ef & Hf) end. rewrite Ef. along.
      assert (exists l' t' z', f' = PUnnamed l' t' z') as (l' & t' & z' & ->).
      { cbn [dress_fields] in Ef. destruct (enter _) as [[g0 i] r]. destruct (separated _ _ _) as [ps ss]. injection Ef as <- _. eauto. }
      eexists. split; [reflexivity|]. cbn [pitem_tokens]. prints. cbn [pg_params pg_where pname_tokens fst snd]. rewrite Hf. reflexivity.
    + cbn [dress_fields]. along. eexists. split; [reflexivity|]. cbn [pitem_tokens]. prints. reflexivity.
  - (* enum *) intros a v x g vs t l rest H. cbn [item_tokens] in H. cut_. cbn [dress_item]. along.
    match goal with X : map erase ?y = punctuated _ _ _ _ |- _ =>
      pose proof (separated_read dress_variant variant_tokens pvariant_tokens "," t vs ltac:(apply Forall_forall; intros; apply variant_read) y [] X) as S;
      rewrite app_nil_r in S; destruct (separated dress_variant vs y) as [ps ss] end. destruct S as [S _].
    eexists. split; [reflexivity|]. cbn [pitem_tokens]. prints. unfold ppunctuated. cbn [seps_of sep_spans sep_trailing]. rewrite S. reflexivity.
  - (* union *) intros a v x g vs t l rest H. cbn [item_tokens] in H. cut_. cbn [dress_item]. along.
    match goal with X : map erase ?y = punctuated _ _ _ _ |- _ =>
      pose proof (separated_read dress_field field_tokens pfield_tokens "," t vs ltac:(apply Forall_forall; intros; apply field_read) y [] X) as S;
      rewrite app_nil_r in S; destruct (separated dress_field vs y) as [ps ss] end. destruct S as [S _].
    eexists. split; [reflexivity|]. cbn [pitem_tokens]. prints. unfold ppunctuated. cbn [seps_of sep_spans sep_trailing]. rewrite S. reflexivity.
  - (* trait *) intros a v u au x g supers t items IH l rest H. cbn [item_tokens] in H. cut_. cbn [dress_item]. along.
    destruct u; cbn [kw_if] in *; cut_; along; (destruct au; cbn [kw_if] in *; cut_; along).
    all: destruct supers as [|b supers]; cut_; cbn [colon_span]; along.
    all: try match goal with X : map erase ?y = punctuated _ _ _ ?bs |- context [separated dress_tokens ?bs (?y ++ ?r)] =>
      pose proof (separated_read dress_tokens (fun ts => ts) (fun ts => ts) "+" t bs ltac:(apply Forall_forall; intros; apply tokens_read) y r X) as S;
      rewrite <- X, map_length, skipn_length_app; destruct (separated dress_tokens bs (y ++ r)) as [ps ss]; destruct S as [S Sl]; destruct ps as [|b0 ps]; [discriminate Sl|] end.
    all: cbn [separated punctuated List.length skipn]; along; eexists; (split; [reflexivity|]); cbn [pitem_tokens]; unfold ppunctuated; cbn [seps_of sep_spans sep_trailing]; prints;
      rewrite ?S; (match goal with X : map erase ?y = flat_map trait_item_tokens _ |- _ => rewrite (threaded_end _ _ _ _ _ IH X) end); ends.
  - (* impl *) intros a d u g tr ty items IH l rest H. cbn [item_tokens] in H. cut_. cbn [dress_item]. along.
    destruct d; cbn [kw_if] in *; cut_; along; (destruct u; cbn [kw_if] in *; cut_; along).
    all: destruct tr as [[[|] path]|]; cut_; along; eexists; (split; [reflexivity|]); cbn [pitem_tokens]; prints;
      (match goal with X : map erase ?y = flat_map impl_item_tokens _ |- _ => rewrite (threaded_end _ _ _ _ _ IH X) end); ends.
  - (* mod *) intros a v u x items IH l rest H. cbn [item_tokens] in H. cut_. cbn [dress_item]. along.
    destruct u; cbn [kw_if] in *; cut_; along; eexists; (split; [reflexivity|]); cbn [pitem_tokens]; prints;
      (match goal with X : map erase ?y = flat_map item_tokens items |- _ => rewrite (threaded_end _ _ _ _ _ IH X) end); ends.
  - (* mod; *) intros a v u x l rest H. cbn [item_tokens] in H. cut_. cbn [dress_item]. along.
    destruct u; cbn [kw_if] in *; cut_; along; eexists; (split; [reflexivity|]); cbn [pitem_tokens]; prints; ends.
  - (* foreign *) intros a u abi items l rest H. cbn [item_tokens] in H. cut_. cbn [dress_item]. along.
    assert (IH : Forall (reads dress_tokens (fun ts => ts) (fun ts => ts)) items) by (apply Forall_forall; intros; apply tokens_read).
    destruct u; cbn [kw_if] in *; cut_; along; (destruct abi as [[y q']|]; cut_; along); eexists; (split; [reflexivity|]); cbn [pitem_tokens]; prints;
      rewrite <- flat_map_self; (match goal with X : map erase ?y = List.concat items |- _ => rewrite <- flat_map_self in X; rewrite (threaded_end _ _ _ _ _ IH X) end); ends.
  - (* other *) intros ts l rest H. cbn [item_tokens] in H. cbn [dress_item]. rewrite (tokens_here l rest ts H). eexists. split; reflexivity.
  - intros i IH l rest H. cbn [dress_stmt]. destruct (IH l rest H) as (b & -> & Hb). eexists. split; [reflexivity|exact Hb].
  - intros ts l rest H. cbn [stmt_tokens] in H. cbn [dress_stmt]. rewrite (tokens_here l rest ts H). eexists. split; reflexivity.
  - (* trait fn *) intros a s b IH l rest H. cbn [trait_item_tokens] in H. cut_. cbn [dress_trait_item]. along. eexists. split; [reflexivity|]. cbn [ptrait_item_tokens]. prints.
    match goal with X : map erase ?y = flat_map stmt_tokens b |- _ => rewrite (threaded_end _ _ _ _ _ IH X) end. reflexivity.
  - intros a s l rest H. cbn [trait_item_tokens] in H. cut_. cbn [dress_trait_item]. along. eexists. split; [reflexivity|]. cbn [ptrait_item_tokens]. prints. reflexivity.
  - intros k ts l rest H. cbn [trait_item_tokens] in H. cbn [dress_trait_item]. rewrite (tokens_here l rest ts H). eexists. split; reflexivity.
  - (* impl fn *) intros a v d s b IH l rest H. cbn [impl_item_tokens] in H. cut_. cbn [dress_impl_item]. along.
    destruct d; cbn [kw_if] in *; cut_; along; eexists; (split; [reflexivity|]); cbn [pimpl_item_tokens]; prints;
      (match goal with X : map erase ?y = flat_map stmt_tokens b |- _ => rewrite (threaded_end _ _ _ _ _ IH X) end); ends.
  - intros k ts l rest H. cbn [impl_item_tokens] in H. cbn [dress_impl_item]. rewrite (tokens_here l rest ts H). eexists. split; reflexivity.
Qed.
Lemma stmt_read s : stmt_reads s.
Proof.
  destruct s as [i|ts]; intros l rest H; cbn [dress_stmt]; cbn [stmt_tokens] in H.
  - destruct (item_read i l rest H) as (b & -> & Hb). eexists. split; [reflexivity|exact Hb].
  - rewrite (tokens_here l rest ts H). eexists. split; reflexivity.
Qed.
Lemma block_read b l : block_tokens b = map erase l -> alike (pblock_tokens (dress_block b l)) l.
Proof. intros H. apply (threaded_end dress_stmt stmt_tokens); [apply Forall_forall; intros; apply stmt_read|symmetry; exact H]. Qed.

(** ** Trees and the instance *)
Lemma tree_read t : reads dress_tree tree_tokens ptree_tokens t.
Proof.
  induction t as [t|d c IH|a b c IH] using tree_ind'; intros l rest H; cbn [tree_tokens] in H.
  - apply map_eq_cons in H as (t' & q & -> & Ht & H). subst t. cut_. cbn [dress_tree]. rewrite (tokens_here [t'] rest [_] eq_refl).
    eexists. split; reflexivity.
  - cut_. cbn [dress_tree app enter]. eexists. split; [reflexivity|]. cbn [ptree_tokens]. prints. rewrite (threaded_end _ _ _ _ _ IH Hg). reflexivity.
  - cut_. cbn [dress_tree]. rewrite <- app_assoc. destruct (all_attrs_read a _ (q ++ rest) Hp) as (a' & -> & Ha). destruct (threaded_read _ _ _ _ IH _ rest Hq) as (c' & -> & Hc).
    eexists. split; [reflexivity|]. cbn [ptree_tokens]. rewrite !C_app, Ha, Hc. reflexivity.
Qed.
Lemma dressed_covers Y : covers Y -> scovers (dressed_syntax Y).
Proof.
  intros H ts. apply (threaded_end dress_tree tree_tokens); [apply Forall_forall; intros; apply tree_read|]. symmetry. apply H.
Qed.
Lemma dressed_faithful O Y : faithful O (reparse Y) -> sfaithful (dressed O) (snodes (dressed_syntax Y)).
Proof.
  intros F. split.
  - intros k ts r E. cbn [dressed_syntax snodes sreparse] in E. unfold SpanInstance.same_tokens in E. destruct (reparse Y k (map erase ts)) as [q|] eqn:Eq; [|discriminate].
    apply (faithful_node _ _ F) in Eq. subst q. cbn [option_map] in E. rewrite tt_eqb_refl in E. injection E as <-. reflexivity.
  - intros ts x E. cbn in E. unfold at_first in E. destruct (parse_ident O (map erase ts)) as [y|] eqn:Ey; [|discriminate]. cbn [option_map] in E. injection E as <-.
    apply (faithful_ident _ _ F) in Ey. cut_. reflexivity.
  - intros ts x E. cbn in E. unfold at_first in E. destruct (parse_lit_str O (map erase ts)) as [[v p]|] eqn:Ey; [|discriminate]. cbn [option_map] in E. injection E as <-.
    apply (faithful_str _ _ F) in Ey. cut_. reflexivity.
Qed.
