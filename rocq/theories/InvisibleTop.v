(** Invisible groups: whole inputs, distances, arguments, the instance. *)
From Coq Require Import String Lia.
From Verif Require Import Base Token Types Values Ast Env Item Deprecation Interpreter Parse Macro
  SpecParse InvisibleParse InvisibleMacro SpecRepro SpecInvisible InvisibleProofs InvisibleSame InvisibleInstance.
Open Scope list_scope.

(** ** Input with invisible groups *)
Lemma flat_idem t : flats (flat t) = flat t.
Proof.
  induction t as [x|c j|l|d ts IH] using tt_ind'; try reflexivity.
  assert (E : flats (flats ts) = flats ts).
  { induction IH as [|t ts H _ IHl]; [reflexivity|]. unfold flats at 2 3. cbn [flat_map]. rewrite flats_app, H. fold (flats ts). rewrite IHl. reflexivity. }
  destruct d; cbn [flat]; fold (flats ts); [| | |exact E]; unfold flats at 1; cbn [flat_map flat]; fold (flats (flats ts)); rewrite E; reflexivity.
Qed.
Lemma flats_idem ts : flats (flats ts) = flats ts.
Proof. induction ts as [|t ts IH]; [reflexivity|]. unfold flats at 2 3. cbn [flat_map]. rewrite flats_app, flat_idem. fold (flats ts). rewrite IH. reflexivity. Qed.

Lemma part_fine ts s : all_fine ts = true -> part_of ts s -> all_fine s = true.
Proof.
  intros H Hp. induction Hp as [|t r _ IH|xs r _ IH|d xs r _ IH|a b _ IH]; [exact H| | | |].
  - apply andb_prop in IH as [_ IH]. exact IH.
  - apply andb_prop in IH as [I1 I2]. destruct (fine_group _ I1) as (I3 & _). rewrite all_fine_app, I3. exact I2.
  - apply andb_prop in IH as [I1 _]. cbn [fine] in I1. apply andb_prop in I1 as [I1 _]. exact I1.
  - rewrite all_fine_app in IH. apply andb_prop in IH as [IH _]. exact IH.
Qed.
Lemma agree_through {A B} (f : list tt -> option (A * nat * bool)) (what : A -> B) ts : reads_through f what ts -> agree f what ts.
Proof.
  unfold reads_through, agree. destruct (f ts) as [[[a k] u]|], (f (flats ts)) as [[[a' k'] u']|]; try tauto.
  intros (A1 & A2 & _ & ->). repeat split; try assumption; apply matches_taken.
Qed.

Theorem func_through : forall P has_func n ts, all_fine ts = true -> (forall s, part_of ts s -> transparent_at P s) ->
  same_parse (parse_func_macro P has_func n ts) (Parse.parse_func_macro P has_func n (flats ts)).
Proof.
  intros P has_func n ts Hf Ht.
  apply (func_same P has_func (part_of ts) flats (fun b => flats (block_tokens b))); try (intros; eapply agree_through, Ht; eassumption).
  - intros s. apply part_fine, Hf.
  - apply part_next.
  - apply part_enter.
  - apply part_group.
  - apply part_front.
  - intros s _. symmetry. apply flats_idem.
  - apply part_all.
Qed.

Theorem attr_through : forall P has_func n attr item, all_fine attr = true -> all_fine item = true ->
  (forall s, part_of attr s \/ part_of [TGroup Brace item] s -> transparent_at P s) ->
  same_parse (parse_attr_macro P has_func n attr item) (Parse.parse_attr_macro P has_func n (flats attr) (flats item)).
Proof.
  intros P has_func n attr item Hf Hi Ht.
  assert (Hi' : all_fine [TGroup Brace item] = true) by (unfold all_fine; cbn [forallb fine]; unfold all_fine in Hi; rewrite Hi; reflexivity).
  apply (attr_same P has_func (fun s => part_of attr s \/ part_of [TGroup Brace item] s) flats (fun b => flats (block_tokens b))); try (intros; eapply agree_through, Ht; eassumption).
  - intros s [H|H]; [exact (part_fine _ _ Hf H)|exact (part_fine _ _ Hi' H)].
  - intros t r [H|H]; [left|right]; exact (part_next _ _ _ H).
  - intros xs r [H|H]; [left|right]; exact (part_enter _ _ _ H).
  - intros d xs r [H|H]; [left|right]; exact (part_group _ _ _ _ H).
  - intros a b [H|H]; [left|right]; exact (part_front _ _ _ H).
  - intros s _. symmetry. apply flats_idem.
  - left. apply part_all.
  - right. apply part_all.
  - intros b k u b' k' u' E E'. pose proof (through_block _ _ (Ht _ (or_intror (part_all _)))) as T. unfold reads_through in T.
    change (flats [TGroup Brace item]) with [TGroup Brace (flats item)] in T. rewrite E, E' in T. destruct T as (_ & _ & L & ->). cbn in L.
    destruct k as [|[|k]]; cbn; lia.
Qed.

(** ** Input without *)
Lemma visible_flat t : visible t = true -> flat t = [t].
Proof.
  induction t as [x|c j|l|d ts IH] using tt_ind'; intros H; try reflexivity.
  assert (E : forallb visible ts = true -> flats ts = ts).
  { intros Hv. induction IH as [|t ts H0 _ IHl]; [reflexivity|]. cbn [forallb] in Hv. apply andb_prop in Hv as [H1 H2]. unfold flats. cbn [flat_map].
    rewrite (H0 H1). fold (flats ts). rewrite IHl; [reflexivity| |exact H2]. destruct d; cbn [visible forallb] in *; try discriminate; apply andb_prop in H as [_ H]; exact H. }
  destruct d; cbn [visible] in H; try discriminate; cbn [flat]; fold (flats ts); rewrite (E H); reflexivity.
Qed.
Lemma visible_flats ts : all_visible ts = true -> flats ts = ts.
Proof.
  induction ts as [|t ts IH]; intros H; [reflexivity|]. apply andb_prop in H as [H1 H2]. unfold flats. cbn [flat_map].
  rewrite (visible_flat _ H1). fold (flats ts). rewrite (IH H2). reflexivity.
Qed.
Lemma all_visible_app a b : all_visible (a ++ b) = all_visible a && all_visible b.
Proof. apply forallb_app. Qed.
Lemma visible_fine t : visible t = true -> fine t = true.
Proof.
  induction t as [x|c j|l|d ts IH] using tt_ind'; intros H; try reflexivity. cbn [fine].
  assert (E : forallb visible ts = true -> forallb fine ts = true).
  { intros Hv. clear H. induction IH as [|t ts H0 _ IHl]; [reflexivity|]. cbn [forallb] in *. apply andb_prop in Hv as [H1 H2]. rewrite (H0 H1), (IHl H2). reflexivity. }
  destruct d; cbn [visible] in H; try discriminate; rewrite (E H); reflexivity.
Qed.
Lemma visible_all_fine ts : all_visible ts = true -> all_fine ts = true.
Proof. induction ts as [|t ts IH]; intros H; [reflexivity|]. apply andb_prop in H as [H1 H2]. unfold all_fine. cbn [forallb]. rewrite (visible_fine _ H1). exact (IH H2). Qed.
Lemma visible_invisible t : visible t = true -> invisible t = false.
Proof. destruct t as [| | |[] ?]; try reflexivity. discriminate. Qed.
Lemma visible_advance ts : all_visible ts = true -> forall k, advance k ts = skipn k ts.
Proof.
  intros H k. revert ts H. induction k as [|k IH]; intros ts H; [apply advance_0|]. destruct ts as [|t r]; [reflexivity|].
  apply andb_prop in H as [H1 H2]. rewrite (advance_visible _ _ _ (visible_invisible _ H1)). exact (IH _ H2).
Qed.
Lemma visible_taken ts : all_visible ts = true -> forall k, taken k ts = firstn k ts.
Proof.
  intros H k. revert ts H. induction k as [|k IH]; intros ts H; [reflexivity|]. destruct ts as [|t r]; [reflexivity|].
  apply andb_prop in H as [H1 H2]. rewrite (taken_visible _ _ _ (visible_invisible _ H1)). cbn [firstn]. rewrite (IH _ H2). reflexivity.
Qed.
Lemma forallb_skipn {A} (p : A -> bool) k l : forallb p l = true -> forallb p (skipn k l) = true.
Proof. revert l. induction k as [|k IH]; intros l H; [exact H|]. destruct l as [|x l]; [exact H|]. apply andb_prop in H as [_ H]. exact (IH _ H). Qed.
Lemma forallb_firstn {A} (p : A -> bool) k l : forallb p l = true -> forallb p (firstn k l) = true.
Proof. revert l. induction k as [|k IH]; intros l H; [reflexivity|]. destruct l as [|x l]; [exact H|]. apply andb_prop in H as [H1 H]. cbn. rewrite H1. exact (IH _ H). Qed.
Lemma visible_matches ts k : all_visible ts = true -> matches ts k k.
Proof.
  intros H. split.
  - rewrite (visible_advance _ H), (visible_flats ts H). apply visible_flats, forallb_skipn, H.
  - rewrite (visible_taken _ H), (visible_flats ts H). apply visible_flats, forallb_firstn, H.
Qed.
Lemma agree_visible {A} (f : list tt -> option (A * nat * bool)) ts : all_visible ts = true -> forall B (what : A -> B), agree f what ts.
Proof.
  intros H B what. unfold agree. rewrite (visible_flats _ H). destruct (f ts) as [[[a k] u]|]; [|exact I]. repeat split; apply visible_matches, H.
Qed.
Lemma over_value_id v : over_value (fun x => x) v = v.
Proof. destruct v; reflexivity. Qed.
Lemma over_expr_id e : over_expr (fun x => x) e = e.
Proof.
  induction e as [n v|n x args raw IH] using expr_ind'; cbn; [rewrite over_value_id; reflexivity|].
  f_equal; [|destruct raw as [[? ?]|]; reflexivity]. induction IH as [|e l H _ IHl]; [reflexivity|]. cbn. rewrite H, IHl. reflexivity.
Qed.
Lemma map_ext_id {A} (f : A -> A) : (forall x, f x = x) -> forall l, map f l = l.
Proof. intros H l. rewrite (map_ext _ _ H). apply map_id. Qed.
Lemma map_tuple_value_id {V} (f : V -> V) : (forall x, f x = x) -> forall t, map_tuple_value f t = t.
Proof.
  intros H t. induction t as [v|l IH] using tuple_ind'; cbn; [rewrite H; reflexivity|]. f_equal.
  induction IH as [|t l H0 _ IHl]; [reflexivity|]. cbn. rewrite H0, IHl. reflexivity.
Qed.
Lemma over_ast_id {B} (a : raw_ast B) : over_ast (fun x => x) (fun x => x) a = a.
Proof.
  destruct a as [loops spec b]. unfold over_ast. cbn. f_equal.
  - destruct loops as [l|]; [|reflexivity]. cbn. f_equal. apply map_ext_id. intros [pat vals]. unfold map_loop. cbn. f_equal.
    apply map_ext_id. intros [e|t]; cbn; [rewrite over_expr_id; reflexivity|]. unfold map_tuple. f_equal. apply map_ext_id. apply map_tuple_value_id, over_expr_id.
  - destruct spec as [[items c]|]; [|reflexivity]. cbn. unfold map_spec. cbn. f_equal. f_equal. apply map_ext_id. intros [a e]. cbn. rewrite over_expr_id. reflexivity.
Qed.
Lemma same_id (p q : parsed) : same_result (fun x => x) (fun x : list stmt => x) p q -> p = q.
Proof.
  intros [H1 H2]. destruct p as [s o], q as [s' o']. cbn in *. subst s'. f_equal.
  destruct o as [[a|]| |], o' as [[b|]| |]; try contradiction; [|reflexivity]. rewrite !over_ast_id in H2. rewrite H2. reflexivity.
Qed.

Ltac closed := first [ apply visible_all_fine
  | let t := fresh in let r := fresh in let H := fresh in intros t r H; apply andb_prop in H as [_ H]; exact H
  | let t := fresh in let r := fresh in let H := fresh in intros t r H; discriminate H
  | let d := fresh in let t := fresh in let r := fresh in let H := fresh in intros d t r H; apply andb_prop in H as [H _]; destruct d; try discriminate H; exact H
  | let t := fresh in let r := fresh in let H := fresh in intros t r H; rewrite all_visible_app in H; apply andb_prop in H as [H _]; exact H
  | let s := fresh in let H := fresh in intros s H; rewrite (visible_flats _ H); reflexivity
  | let s := fresh in let H := fresh in intros s H; apply agree_visible, H ].
Theorem func_visible : forall P has_func n ts, all_visible ts = true ->
  parse_func_macro P has_func n ts = Parse.parse_func_macro P has_func n ts.
Proof.
  intros P has_func n ts H. pose proof (visible_flats _ H) as E. rewrite <- E at 2. apply same_id.
  apply (func_same P has_func (fun s => all_visible s = true)); try closed. exact H.
Qed.
Theorem attr_visible : forall P has_func n attr item, all_visible attr = true -> all_visible item = true ->
  parse_attr_macro P has_func n attr item = Parse.parse_attr_macro P has_func n attr item.
Proof.
  intros P has_func n attr item H Hi. pose proof (visible_flats _ H) as E. pose proof (visible_flats _ Hi) as Ei.
  rewrite <- E at 2. rewrite <- Ei at 2. apply same_id.
  assert (Hb : all_visible [TGroup Brace item] = true) by (unfold all_visible in *; cbn [forallb visible]; rewrite Hi; reflexivity).
  apply (attr_same P has_func (fun s => all_visible s = true)); try closed; try assumption.
  rewrite Ei. intros b k u b' k' u' E1 E2. rewrite E1 in E2. injection E2 as _ <- _. tauto.
Qed.

Theorem uses_visible : forall O P Y uses, Forall (fun u => source_visible (u_source u) = true) uses ->
  expand_uses_through O P Y uses = expand_uses O P Y uses.
Proof.
  intros O P Y uses H. unfold expand_uses_through, expand_uses. do 2 f_equal. induction H as [|u l H _ IH]; [reflexivity|]. cbn [map]. rewrite IH. f_equal.
  unfold invocation_through, invocation_for, invocation_of. f_equal. destruct (u_source u) as [ts|ts|attr item]; cbn [source_visible] in H.
  - apply func_visible, H.
  - apply func_visible, H.
  - apply andb_prop in H as [H1 H2]. apply attr_visible; assumption.
Qed.

(** ** The instance *)
Lemma reach_taken ts : forall k, k <= List.length (flats ts) ->
  List.length (taken (reach k (flat_map marks ts)) ts) = k /\ reach k (flat_map marks ts) <= all_entries ts.
Proof.
  induction ts as [|xs r IH|x r E IH] using entries_ind; intros k H.
  - cbn in H. destruct k; [|lia]. split; reflexivity.
  - rewrite flats_invisible in H. rewrite all_entries_invisible. assert (M : flat_map marks (TGroup NoDelim xs :: r) = true :: flat_map marks (xs ++ r)) by (rewrite flat_map_app; reflexivity).
    rewrite M. destruct k as [|k]; [split; [reflexivity|cbn; lia]|]. cbn [reach]. destruct (IH (S k) H) as [A B]. cbn [taken]. split; [exact A|lia].
  - rewrite (flats_visible _ _ E) in H. rewrite (all_entries_visible _ _ E). assert (M : flat_map marks (x :: r) = false :: flat_map marks r) by (destruct x as [| | |[] ?]; try reflexivity; discriminate).
    rewrite M. destruct k as [|k]; [split; [reflexivity|cbn; lia]|]. cbn [reach List.length] in *. destruct (IH k ltac:(lia)) as [A B]. rewrite (taken_visible _ _ _ E). cbn [List.length]. split; lia.
Qed.
Lemma flat_is_visible t : all_visible (flat t) = true.
Proof.
  induction t as [x|c j|l|d ts IH] using tt_ind'; try reflexivity.
  assert (E : all_visible (flats ts) = true).
  { induction IH as [|t ts H _ IHl]; [reflexivity|]. unfold flats. cbn [flat_map]. rewrite all_visible_app, H. exact IHl. }
  unfold all_visible, flats in *. destruct d; cbn [flat forallb visible]; rewrite ?E; reflexivity.
Qed.
Lemma flats_are_visible ts : all_visible (flats ts) = true.
Proof. induction ts as [|t ts IH]; [reflexivity|]. unfold flats. cbn [flat_map]. rewrite all_visible_app, flat_is_visible. exact IH. Qed.
Lemma reach_flat ts k : k <= List.length (flats ts) -> reach k (flat_map marks (flats ts)) = k.
Proof.
  intros H. pose proof (flats_are_visible ts) as V. revert k H. induction (flats ts) as [|t l IH]; intros k H; [destruct k; [reflexivity|cbn in H; lia]|].
  apply andb_prop in V as [V1 V2]. assert (M : flat_map marks (t :: l) = false :: flat_map marks l) by (destruct t as [| | |[] ?]; try reflexivity; discriminate).
  rewrite M. destruct k as [|k]; [reflexivity|]. cbn [reach List.length] in *. rewrite (IH V2); lia.
Qed.
Lemma through_reads {A B} (f : list tt -> option (A * nat * bool)) (what : A -> B) ts :
  (forall s a k u, f s = Some (a, k, u) -> k <= List.length s) -> reads_through (through_unread f) what ts.
Proof.
  intros W. unfold reads_through, through_unread. rewrite flats_idem. destruct (f (flats ts)) as [[[a k] u]|] eqn:E; cbn [option_map]; [|exact I].
  pose proof (W _ _ _ _ E) as L. destruct (reach_taken _ _ L) as [Q1 Q2]. repeat split; [exact Q2|]. rewrite (reach_flat _ _ L), Q1. reflexivity.
Qed.
Lemma through_reads_all {A B} (f : list tt -> option (A * nat)) (what : A -> B) ts :
  (forall s a k, f s = Some (a, k) -> k <= List.length s) -> reads_through (with_nothing_unread (through f)) what ts.
Proof.
  intros W. unfold reads_through, with_nothing_unread, through. rewrite flats_idem. destruct (f (flats ts)) as [[a k]|] eqn:E; cbn [option_map]; [|exact I].
  pose proof (W _ _ _ E) as L. destruct (reach_taken _ _ L) as [Q1 Q2]. repeat split; [exact Q2|]. rewrite (reach_flat _ _ L), Q1. reflexivity.
Qed.
Theorem instance_transparent : forall P, within P -> forall ts, transparent_at (reading_through P) ts.
Proof.
  intros P (W1 & W2 & W3 & W4 & W5 & W6) ts. split; cbn [pre_lit_int pre_lit_str pre_path pre_type pre_expr pre_block reading_through].
  - apply through_reads_all. intros s [d r] k. apply W1.
  - apply through_reads_all. intros s [d r] k. apply W2.
  - apply through_reads, W3.
  - apply through_reads, W4.
  - apply through_reads, W5.
  - apply through_reads, W6.
Qed.

(** ** Arguments *)
Lemma begins_next t : begins t = true -> exists i x, next_in t = (i, Some x) /\ is_comma x = false.
Proof.
  intros H. unfold begins in H. assert (N : next [t] = match next_in t with (n, Some y) => (n, Some y) | (n, None) => (n + 0, None) end) by (cbn; destruct (next_in t) as [n [y|]]; reflexivity).
  destruct (next_in t) as [i [x|]].
  - exists i, x. split; [reflexivity|]. destruct (next_some _ _ _ N) as (_ & E & _). unfold flats in E. cbn [flat_map] in E. rewrite app_nil_r in E. rewrite E in H.
    rewrite blind_comma in H. destruct (is_comma x); [discriminate|reflexivity].
  - destruct (next_none _ _ N) as (E & _). unfold flats in E. cbn [flat_map] in E. rewrite app_nil_r in E. rewrite E in H. discriminate.
Qed.
Lemma until_piece p rest : forallb begins p = true -> match rest with [] => True | t :: _ => is_comma t = true end -> until is_comma (p ++ rest) = p.
Proof.
  intros H Hr. induction p as [|t p IH].
  - destruct rest as [|c r]; [reflexivity|]. cbn [app until]. destruct c as [|c j| |]; try discriminate. cbn. cbn in Hr. rewrite Hr. reflexivity.
  - cbn [forallb] in H. apply andb_prop in H as [H1 H2]. destruct (begins_next _ H1) as (i & x & N & C). cbn [app until next]. rewrite N. cbn [snd]. rewrite C, (IH H2). reflexivity.
Qed.
Section Arguments.
Context (P : parsers) (has_func : str -> bool).
Local Notation E ts := (flat_map (ann P has_func) ts).
Lemma arg_piece p rest n : forallb begins p = true -> match rest with [] => True | t :: _ => is_comma t = true end ->
  parse_arg P has_func n (E (p ++ rest)) (p ++ rest) =
  match parse_expr P has_func n (E p) p with
  | (n1, (e, k, u)) => (n1, if exhausted (advance k p) && negb u then Some (e, all_entries p) else None)
  end.
Proof.
  intros H Hr. unfold parse_arg. rewrite (until_piece _ _ H Hr), (E_firstn P has_func p rest).
  destruct (parse_expr P has_func n (E p) p) as [n1 [[e k] u]]. destruct (exhausted (advance k p)), u; reflexivity.
Qed.
Lemma pieces_terminated pieces : Forall (fun p => p <> [] /\ forallb begins p = true) pieces -> forall n,
  parse_terminated (parse_arg P has_func) (E (separated pieces)) (separated pieces) Item n = each_argument P has_func n pieces.
Proof.
  intros H. induction H as [|p pieces [NE B] _ IH]; intros n; [reflexivity|]. cbn [each_argument].
  assert (Hs : exists rest, separated (p :: pieces) = p ++ rest /\ match rest with [] => pieces = [] | t :: r => is_comma t = true /\ invisible t = false /\ r = separated pieces end).
  { cbn [separated]. destruct pieces as [|q pieces]; [exists []; rewrite app_nil_r; auto|]. eexists. split; [reflexivity|]. cbn beta iota. auto. }
  destruct Hs as (rest & -> & Hr).
  assert (NE' : p ++ rest <> []) by (destruct p; [contradiction|discriminate]).
  rewrite (terminated_item P has_func (parse_arg P has_func) _ n NE'), (arg_piece p rest n B) by (destruct rest; [exact I|apply Hr]).
  destruct (parse_expr P has_func n (E p) p) as [n1 [[e k] u]]. destruct (exhausted (advance k p) && negb u); [|reflexivity].
  rewrite (terminated_skip P has_func), advance_app. destruct rest as [|t r].
  - subst pieces. reflexivity.
  - destruct Hr as (C & V & ->). rewrite (terminated_sep P has_func (parse_arg P has_func) (t :: separated pieces) 0 t n1 (Skip 0) (or_introl eq_refl) (next_visible _ _ V)), C.
    rewrite (advance_visible 0 _ _ V), advance_0, IH. reflexivity.
Qed.
End Arguments.
Theorem arguments_each : forall P has_func pieces n, Forall (fun p => p <> [] /\ forallb begins p = true) pieces ->
  parse_args P has_func (flat_map (ann P has_func) (separated pieces)) (separated pieces) n =
  match each_argument P has_func n pieces with (n', o) => (n', match o with Some args => args | None => [] end) end.
Proof. intros P has_func pieces n H. unfold parse_args. rewrite (pieces_terminated _ _ _ H). destruct (each_argument P has_func n pieces) as [n' [l|]]; reflexivity. Qed.
