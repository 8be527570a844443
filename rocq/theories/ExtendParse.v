(** Parsing asks only for the functions whose names stand directly before parentheses. *)
From Coq Require Import String.
From Verif Require Import Base BaseFacts Token Types Values Ast Item Interpreter Parse SpecExtend.
Open Scope list_scope.

Lemma called1_group d ts : d = Paren \/ d = Bracket -> called1 (TGroup d ts) = called ts.
Proof. intros [-> | ->]; induction ts as [|t r IH]; try reflexivity; cbn in *; rewrite <- IH; reflexivity. Qed.

Section Parse.
Context (P : parsers) (hf hf' : str -> bool).

(** Token trees with the same inside. *)
Definition alike (a b : atok) : Prop :=
  a_tok a = a_tok b /\ (forall n, a_args a n = a_args b n) /\ (forall n, a_tuple a n = a_tuple b n) /\ a_pattern a = a_pattern b.
Notation alikes := (Forall2 alike).
Definition agree (ts : list tt) : Prop := forall a x g b, ts = a ++ TIdent x :: TGroup Paren g :: b -> hf x = hf' x.
Lemma alikes_length l l' : alikes l l' -> List.length l = List.length l'.
Proof. induction 1; cbn; congruence. Qed.
Lemma toks_alike l l' : alikes l l' -> toks l = toks l'.
Proof. induction 1 as [|a b l l' (H & _) _ IH]; [reflexivity|]. cbn [toks map] in *. unfold toks in IH. congruence. Qed.
Lemma agree_suffix a b : agree (a ++ b) -> agree b.
Proof. intros H p x g q E. apply (H (a ++ p) x g q). rewrite E, app_assoc. reflexivity. Qed.
Lemma agree_prefix a b : agree (a ++ b) -> agree a.
Proof. intros H p x g q E. apply (H p x g (q ++ b)). rewrite E, <- app_assoc. reflexivity. Qed.
Lemma agree_tail t r : agree (t :: r) -> agree r.
Proof. exact (agree_suffix [t] r). Qed.
Lemma agree_skip k ts : agree ts -> agree (skipn k ts).
Proof. intros H. apply (agree_suffix (firstn k ts)). rewrite firstn_skipn. exact H. Qed.
Lemma alikes_skip k : forall l l', alikes l l' -> alikes (skipn k l) (skipn k l').
Proof. induction k as [|k IH]; intros l l' H; [exact H|]. destruct H; [constructor|]. cbn [skipn]. apply IH. assumption. Qed.

Lemma call_alike n l l' : alikes l l' -> agree (toks l) -> parse_call P hf n l = parse_call P hf' n l'.
Proof.
  intros H A. destruct H as [|a b l l' (Ht & _) H]; [reflexivity|]. destruct a as [t f1 f2 f3], b as [t' f1' f2' f3']. cbn in Ht. subst t'.
  destruct H as [|a b l l' (Ht & Hf & _) H]; [destruct t; reflexivity|]. destruct a as [g h1 h2 h3], b as [g' h1' h2' h3']. cbn in Ht, Hf. subst g'.
  destruct t as [x|c j|li|d q]; try reflexivity. destruct g as [y|c j|li|[] q]; try reflexivity. cbn [parse_call].
  rewrite (A [] x q (toks l)) by reflexivity. destruct (ident_allowed P x && hf' x); [|reflexivity]. cbn [a_args]. rewrite Hf. reflexivity.
Qed.
Lemma expr_alike n l l' : alikes l l' -> agree (toks l) -> parse_expr P hf n l = parse_expr P hf' n l'.
Proof. intros H A. unfold parse_expr. rewrite (call_alike n _ _ H A), (toks_alike _ _ H). reflexivity. Qed.
Lemma terminated_alike {A} (item item' : N -> list atok -> N * option (A * nat)) :
  (forall n l l', alikes l l' -> agree (toks l) -> item n l = item' n l') ->
  forall l l', alikes l l' -> agree (toks l) -> forall skip n, parse_terminated item l skip n = parse_terminated item' l' skip n.
Proof.
  intros Hi l l' H. induction H as [|a b l l' Ha H IH]; intros Ag skip n; [reflexivity|].
  specialize (IH (agree_tail _ _ Ag)). cbn [parse_terminated]. rewrite (proj1 Ha). destruct skip as [[|k]|]; [destruct (is_comma _); [apply IH|reflexivity]|apply IH|].
  rewrite (Hi n (a :: l) (b :: l')) by (auto; constructor; auto). destruct (item' n (b :: l')) as [n1 [[x [|k]]|]]; [| |reflexivity].
  - destruct (is_comma _); [rewrite IH|]; reflexivity.
  - rewrite IH. reflexivity.
Qed.
Lemma auntil_alike term l l' : alikes l l' -> alikes (auntil term l) (auntil term l').
Proof. induction 1 as [|a b l l' Ha H IH]; [constructor|]. cbn [auntil]. rewrite (proj1 Ha). destruct (term _); [constructor|]. constructor; assumption. Qed.
Lemma auntil_prefix term l : exists q, toks l = toks (auntil term l) ++ q.
Proof.
  induction l as [|a l (q & IH)]; [exists []; reflexivity|]. cbn [auntil]. destruct (term (a_tok a)); [exists (toks (a :: l)); reflexivity|].
  exists q. cbn [toks map app] in *. unfold toks in IH. rewrite IH at 1. reflexivity.
Qed.
Lemma arg_alike n l l' : alikes l l' -> agree (toks l) -> parse_arg P hf n l = parse_arg P hf' n l'.
Proof.
  intros H A. unfold parse_arg. destruct (auntil_prefix is_comma l) as (q & E). rewrite E in A. apply agree_prefix in A.
  pose proof (auntil_alike is_comma _ _ H) as H'. cbv zeta. rewrite (expr_alike n _ _ H' A). destruct (parse_expr P hf' n (auntil is_comma l')) as [n' [[e k] u]].
  pose proof (alikes_skip k _ _ H') as Hk. rewrite <- (alikes_length _ _ H'). destruct Hk; reflexivity.
Qed.
Lemma args_alike l l' n : alikes l l' -> agree (toks l) -> parse_args P hf l n = parse_args P hf' l' n.
Proof. intros H A. unfold parse_args. rewrite (terminated_alike _ _ arg_alike l l' H A). reflexivity. Qed.
Lemma tuple_value_alike n l l' : alikes l l' -> agree (toks l) -> parse_tuple_value P hf n l = parse_tuple_value P hf' n l'.
Proof.
  intros H A. unfold parse_tuple_value. pose proof (expr_alike n _ _ H A) as E. destruct H as [|a b l l' (Ht & _ & Hu & _) H]; [rewrite E; reflexivity|].
  destruct a as [t f1 f2 f3], b as [t' f1' f2' f3']. cbn in Ht, Hu. subst t'. destruct t as [x|c j|li|[] q]; try (rewrite E; reflexivity). cbn [a_tuple]. rewrite Hu. reflexivity.
Qed.
Lemma tuple_alike l l' n : alikes l l' -> agree (toks l) -> parse_tuple P hf l n = parse_tuple P hf' l' n.
Proof. intros H A. unfold parse_tuple. rewrite (terminated_alike _ _ tuple_value_alike l l' H A). reflexivity. Qed.
Lemma pattern_value_alike n l l' : alikes l l' -> agree (toks l) -> parse_pattern_value P n l = parse_pattern_value P n l'.
Proof.
  intros H _. destruct H as [|a b l l' (Ht & _ & _ & Hp) H]; [reflexivity|].
  destruct a as [t f1 f2 f3], b as [t' f1' f2' f3']. cbn in Ht, Hp. subst t' f3'. destruct t as [x|c j|li|[] q]; reflexivity.
Qed.
Lemma pattern_alike l l' : alikes l l' -> agree (toks l) -> parse_pattern P l = parse_pattern P l'.
Proof. intros H A. unfold parse_pattern. rewrite (terminated_alike _ _ pattern_value_alike l l' H A). reflexivity. Qed.

Definition agree_in (ts : list tt) : Prop := forall x, In x (called ts) -> hf x = hf' x.
Lemma called_app a b x : In x (called b) -> In x (called (a ++ b)).
Proof. intros H. induction a as [|t a IH]; [exact H|]. cbn [app called]. apply in_or_app. right. apply in_or_app. right. exact IH. Qed.
Lemma agree_here ts : agree_in ts -> agree ts.
Proof. intros H a x g b ->. apply H, called_app. left. reflexivity. Qed.
Lemma agree_under d ts q r : agree_in (q ++ TGroup d ts :: r) -> d = Paren \/ d = Bracket -> agree_in ts.
Proof.
  intros H Hd x Hx. apply H, called_app. cbn [called]. apply in_or_app. right. apply in_or_app. left. rewrite called1_group by exact Hd. exact Hx.
Qed.
Lemma toks_ann f ts : toks (map (ann P f) ts) = ts.
Proof. unfold toks. rewrite map_map. induction ts as [|t r IH]; [reflexivity|]. cbn [map]. rewrite IH. destruct t as [x|c j|li|[] q]; reflexivity. Qed.
Lemma in_called1 x t ts : In t ts -> In x (called1 t) -> In x (called ts).
Proof.
  intros H Hx. apply in_split in H as (a & b & ->). apply called_app. cbn [called]. apply in_or_app. right. apply in_or_app. left. exact Hx.
Qed.
Lemma ann_alike : forall t, (forall x, In x (called1 t) -> hf x = hf' x) -> alike (ann P hf t) (ann P hf' t).
Proof.
  fix F 1. intros [x|c j|li|[] ts] H; try (repeat split; reflexivity).
  assert (G : agree_in ts) by (intros x Hx; apply H; rewrite called1_group by auto; exact Hx).
  assert (A : alikes (map (ann P hf) ts) (map (ann P hf') ts)).
  { assert (G' : forall t, In t ts -> forall x, In x (called1 t) -> hf x = hf' x) by (intros t Hi x Hx; exact (G x (in_called1 x t ts Hi Hx))).
    clear G H. induction ts as [|t ts IH]; [constructor|]. cbn [map]. constructor; [apply F; apply G'; left; reflexivity|].
    apply IH. intros t' Hi. apply G'. right. exact Hi. }
  assert (B : agree (toks (map (ann P hf) ts))) by (rewrite toks_ann; apply agree_here, G).
  cbn [ann]. repeat split; cbn [a_args a_tuple a_pattern]; [intros n; apply args_alike|intros n; apply tuple_alike|apply pattern_alike]; assumption.
Qed.
Lemma ann_all ts : agree_in ts -> alikes (map (ann P hf) ts) (map (ann P hf') ts).
Proof.
  intros H. assert (G : forall t, In t ts -> forall x, In x (called1 t) -> hf x = hf' x) by (intros t Hi x Hx; exact (H x (in_called1 x t ts Hi Hx))).
  clear H. induction ts as [|t ts IH]; [constructor|]. cbn [map]. constructor; [apply ann_alike, G; left; reflexivity|]. apply IH. intros t' Hi. apply G. right. exact Hi.
Qed.

(** ** Definitions *)
Lemma spec_item_alike n l l' : alikes l l' -> agree (toks l) -> parse_spec_item P hf n l = parse_spec_item P hf' n l'.
Proof.
  intros H A. destruct H as [|a b l l' (Ht & _) H]; [reflexivity|]. destruct a as [t f1 f2 f3], b as [t' f1' f2' f3']. cbn in Ht. subst t'.
  destruct H as [|a b l l' (Hq & _) H]; [destruct t; reflexivity|]. cbn [parse_spec_item]. destruct t as [x|c j|li|d q]; try reflexivity. rewrite Hq.
  destruct (ident_allowed P x && is_equals (a_tok b)); [|reflexivity].
  rewrite (expr_alike n _ _ H (agree_tail _ _ (agree_tail _ _ A))). destruct (parse_expr P hf' n l') as [n' [[e k] u]].
  rewrite (toks_alike _ _ (alikes_skip k _ _ H)). reflexivity.
Qed.
Lemma peek_alike l l' : alikes l l' -> peek_ident P l = peek_ident P l'.
Proof. intros H. destruct H as [|a b l l' (Ht & _) H]; [reflexivity|]. destruct a, b. cbn in Ht. subst. reflexivity. Qed.
Definition spec_alike (o o' : N * option (list spec_item * option bool * list atok * bool)) : Prop :=
  fst o = fst o' /\ match snd o, snd o' with
  | Some (i, u, l, b), Some (i', u', l', b') => i = i' /\ u = u' /\ alikes l l' /\ b = b'
  | None, None => True
  | _, _ => False
  end.
Lemma parse_spec_alike l l' : alikes l l' -> agree (toks l) -> forall skip used n, spec_alike (parse_spec P hf l skip used n) (parse_spec P hf' l' skip used n).
Proof.
  intros H. induction H as [|a b l l' Ha H IH]; intros Ag skip used n.
  { destruct skip as [[|k]|]; (split; [reflexivity|]); cbn; auto. }
  specialize (IH (agree_tail _ _ Ag)). cbn [parse_spec]. rewrite (proj1 Ha). destruct skip as [[|k]|]; [|apply IH|].
  - rewrite (peek_alike _ _ H). destruct (is_separator _); [|split; [reflexivity|exact I]]. cbv zeta.
    destruct (match used with Some u => _ | None => false end); [split; [reflexivity|exact I]|]. destruct (peek_ident P l'); [apply IH|].
    cbn. repeat split; try reflexivity. exact H.
  - rewrite (spec_item_alike n (a :: l) (b :: l')) by (auto; constructor; auto). destruct (parse_spec_item P hf' n (b :: l')) as [n1 [[[it [|k]] u]|]];
      [split; [reflexivity|exact I]| |split; [reflexivity|exact I]].
    specialize (IH (Some k) used n1). destruct (parse_spec P hf l (Some k) used n1) as [n2 o], (parse_spec P hf' l' (Some k) used n1) as [n2' o'].
    destruct IH as (E & IH). cbn [fst snd] in E, IH. subst n2'. split; [reflexivity|]. cbn [snd].
    destruct o as [[[[i1 u1] l1] b1]|], o' as [[[[i2 u2] l2] b2]|]; try contradiction; [|exact I]. destruct IH as (-> & -> & Hl & ->). cbn. auto.
Qed.

(** ** Loops *)
Lemma source_value_alike n l l' : alikes l l' -> agree (toks l) -> parse_source_value P hf n l = parse_source_value P hf' n l'.
Proof.
  intros H A. unfold parse_source_value. cbv zeta. destruct H as [|a b l l' Ha H]; [rewrite (expr_alike n [] [] (Forall2_nil _) A); reflexivity|].
  assert (E : forall m, parse_expr P hf m (a :: l) = parse_expr P hf' m (b :: l')) by (intros m; apply expr_alike; [constructor; assumption|exact A]).
  destruct Ha as (Ht & _ & Hu & _). destruct a as [t f1 f2 f3], b as [t' f1' f2' f3']. cbn in Ht, Hu. subst t'.
  destruct t as [x|c j|li|[] q]; try (rewrite E; reflexivity). cbn [a_tuple]. rewrite Hu. destruct (f2' n) as [n' [[t u]|]]; [reflexivity|]. rewrite E. reflexivity.
Qed.
Lemma source_list_alike n a b : alike a b -> agree_in (match a_tok a with TGroup Bracket ts => ts | _ => [] end) ->
  parse_source_list P hf n a = parse_source_list P hf' n b.
Proof.
  intros (Ht & _) A. unfold parse_source_list. rewrite Ht in *. destruct (a_tok b) as [x|c j|li|[] q]; try reflexivity.
  rewrite (terminated_alike _ _ source_value_alike _ (map (ann P hf') q) (ann_all q A)); [reflexivity|]. rewrite toks_ann. apply agree_here, A.
Qed.
Lemma loop_alias_alike a b : alike a b -> parse_loop_alias P a = parse_loop_alias P b.
Proof. intros (Ht & _ & _ & Hp). unfold parse_loop_alias. rewrite Ht, Hp. reflexivity. Qed.
Definition loops_alike (o o' : N * option (list loop_item * list atok * bool)) : Prop :=
  fst o = fst o' /\ match snd o, snd o' with
  | Some (i, l, b), Some (i', l', b') => i = i' /\ alikes l l' /\ b = b' /\ agree (toks l)
  | None, None => True
  | _, _ => False
  end.
Lemma parse_loops_alike k : forall l l', List.length l <= k -> alikes l l' -> agree_in (toks l) -> forall n,
  loops_alike (parse_loops P hf l n) (parse_loops P hf' l' n).
Proof.
  induction k as [|k IH]; intros l l' Hk H Ag n.
  { destruct H; [|cbn in Hk; lia]. cbn. repeat split; [constructor|intros [|? ?] ? ? ? E; discriminate E]. }
  destruct H as [|f f' r r' Hf H]. { cbn. repeat split; [constructor|intros [|? ?] ? ? ? E; discriminate E]. }
  cbn [parse_loops]. rewrite (proj1 Hf). destruct (is_word _ _).
  2:{ cbn. repeat split; [constructor; assumption|exact (agree_here _ Ag)]. }
  destruct H as [|pat pat' r r' Hp H]; [split; [reflexivity|exact I]|]. destruct H as [|kw kw' r r' Hw H]; [split; [reflexivity|exact I]|].
  destruct H as [|src src' r r' Hs H]; [split; [reflexivity|exact I]|]. rewrite (loop_alias_alike _ _ Hp), (proj1 Hw).
  destruct (parse_loop_alias P pat'); [|split; [reflexivity|exact I]]. destruct (is_word _ _); [|split; [reflexivity|exact I]].
  rewrite (source_list_alike n src src' Hs).
  2:{ destruct (a_tok src) as [x|c j|li|[] q] eqn:E; try (intros x0 []).
      apply (agree_under Bracket q (toks [f; pat; kw]) (toks r)); [|auto]. cbn [toks map app] in *. rewrite E in Ag. exact Ag. }
  destruct (parse_source_list P hf' n src') as [n1 [[vals u]|]]; [|split; [reflexivity|exact I]].
  assert (Ag' : agree_in (toks r)) by (intros x Hx; apply Ag; exact (called_app (toks [f; pat; kw; src]) (toks r) x Hx)).
  specialize (IH r r' ltac:(cbn in Hk; lia) H Ag' n1). destruct (parse_loops P hf r n1) as [n2 o], (parse_loops P hf' r' n1) as [n2' o'].
  destruct IH as (E & IH). cbn [fst snd] in E, IH. subst n2'. split; [reflexivity|]. cbn [snd].
  destruct o as [[[i1 l1] b1]|], o' as [[[i2 l2] b2]|]; try contradiction; [|exact I]. destruct IH as (-> & Hl & -> & Hg). cbn. auto.
Qed.

(** ** Both macros *)
Definition header_alike (o o' : option (option (list loop_item) * option alias_spec * list atok * bool)) : Prop :=
  match o, o' with
  | Some (a, s, l, b), Some (a', s', l', b') => a = a' /\ s = s' /\ toks l = toks l' /\ b = b'
  | None, None => True
  | _, _ => False
  end.
Lemma parse_header_alike n ts : agree_in ts -> header_alike (parse_header P hf n (map (ann P hf) ts)) (parse_header P hf' n (map (ann P hf') ts)).
Proof.
  intros A. unfold parse_header. assert (A' : agree_in (toks (map (ann P hf) ts))) by (rewrite toks_ann; exact A).
  pose proof (parse_loops_alike _ _ _ (le_n _) (ann_all ts A) A' n) as (E & H).
  destruct (parse_loops P hf _ n) as [n1 o], (parse_loops P hf' _ n) as [n1' o']. cbn [fst snd] in E, H. subst n1'.
  destruct o as [[[i1 l1] b1]|], o' as [[[i2 l2] b2]|]; try contradiction; [|exact I]. destruct H as (-> & Hl & -> & Hg). cbv zeta.
  rewrite (peek_alike _ _ Hl). destruct (peek_ident P l2); [|cbn; repeat split; apply toks_alike, Hl].
  pose proof (parse_spec_alike _ _ Hl Hg None None n1) as (_ & H).
  destruct (snd (parse_spec P hf l1 None None n1)) as [[[[s1 u1] q1] c1]|], (snd (parse_spec P hf' l2 None None n1)) as [[[[s2 u2] q2] c2]|]; try contradiction; [|exact I].
  destruct H as (-> & -> & Hq & ->). cbn. repeat split. apply toks_alike, Hq.
Qed.
Theorem func_macro_alike n ts : agree_in ts -> parse_func_macro P hf n ts = parse_func_macro P hf' n ts.
Proof.
  intros A. unfold parse_func_macro. pose proof (parse_header_alike n ts A) as H.
  destruct (parse_header P hf n _) as [[[[a s] l] b]|], (parse_header P hf' n _) as [[[[a' s'] l'] b']|]; try contradiction; [|reflexivity].
  destruct H as (-> & -> & -> & ->). reflexivity.
Qed.
Theorem attr_macro_alike n attr item : agree_in attr -> parse_attr_macro P hf n attr item = parse_attr_macro P hf' n attr item.
Proof.
  intros A. unfold parse_attr_macro. pose proof (parse_header_alike n attr A) as H.
  destruct (parse_header P hf n _) as [[[[a s] l] b]|], (parse_header P hf' n _) as [[[[a' s'] l'] b']|]; try contradiction; [|reflexivity].
  destruct H as (-> & -> & -> & ->). reflexivity.
Qed.
End Parse.
