(** Proofs for C84: what is read is determined by the grammar and the places. *)
From Coq Require Import String.
From Verif Require Import Base BaseFacts Token Types Values Ast Item Interpreter Parse SpecRepro SpecGrammar GrammarProofs SpanTokens SpanWalker SpanValues SpanEval SpanItem SpanMacro SpanParse
  SpecSpanEval SpecSpanMacro SpanParseProofs SpecSpanGrammar SpanGrammarProofs SpanDressProofs.
Open Scope list_scope.

(** ** One reading *)
Lemma erase_same_length a b : map erase a = map erase b -> List.length a = List.length b.
Proof. intros H. apply (f_equal (@List.length _)) in H. rewrite !map_length in H. exact H. Qed.
Lemma prefix_same {A} (a b a' b' : list A) : a ++ b = a' ++ b' -> List.length a = List.length a' -> a = a'.
Proof.
  revert a'. induction a as [|x a IH]; intros [|y a'] H L; try discriminate L; [reflexivity|]. cbn in H, L. injection H as -> H. f_equal. apply IH; [exact H|lia].
Qed.
(** The end of a piece between commas. *)
Definition stops (ts : list stt) (k : nat) : Prop := skipn k ts = [] \/ exists c r, skipn k ts = c :: r /\ comma c.
Lemma piece_same ts : forall k k', Forall (fun t => ~ comma t) (firstn k ts) -> Forall (fun t => ~ comma t) (firstn k' ts) -> stops ts k -> stops ts k' ->
  firstn k ts = firstn k' ts /\ skipn k ts = skipn k' ts.
Proof.
  assert (N : forall (t : stt) ts k, Forall (fun t => ~ comma t) (firstn (S k) (t :: ts)) -> stops (t :: ts) 0 -> False).
  { intros t ts' k F [S|(c & r & S & C)]; [discriminate S|]. cbn in S. injection S as -> ->. inversion F; auto. }
  induction ts as [|t ts IH]; intros k k' F F' S S'; [split; destruct k, k'; reflexivity|].
  destruct k as [|k], k' as [|k']; [split; reflexivity|exfalso; eauto|exfalso; eauto|]. cbn in F, F'. inversion F; inversion F'; subst. cbn. destruct (IH k k') as [E1 E2]; auto.
  split; [f_equal; exact E1|exact E2].
Qed.

Section Separated.
Context {A B : Type} (here : list stt -> A -> nat -> Prop) (plain : A -> B).
Definition once (x : A) : Prop := forall ts k y k', here ts x k -> here ts y k' -> plain x = plain y -> stops ts k -> stops ts k' -> x = y /\ skipn k ts = skipn k' ts.
Lemma separated_once xs : Forall once xs -> forall ts ys, separated here ts xs -> separated here ts ys -> map plain xs = map plain ys -> xs = ys.
Proof.
  induction 1 as [|x xs Hx _ IH]; intros ts ys S S' E; [destruct ys; [reflexivity|discriminate E]|]. destruct ys as [|y ys]; [discriminate E|]. cbn in E. injection E as E1 E2.
  assert (G : forall ts x xs, separated here ts (x :: xs) -> exists k, here ts x k /\ stops ts k /\
    ((skipn k ts = [] /\ xs = []) \/ exists c r, skipn k ts = c :: r /\ comma c /\ separated here r xs)).
  { clear. intros ts x xs S. inversion S as [|? ? k Hn Hh Hk|? ? k c r ? Hh Hk Hc Hr]; subst; exists k; (split; [exact Hh|]).
    - split; [left; exact Hk|left; auto].
    - split; [right; eauto|right; eauto 6]. }
  apply G in S as (k & H1 & H2 & H3). apply G in S' as (k' & H1' & H2' & H3'). destruct (Hx ts k y k' H1 H1' E1 H2 H2') as [-> Sk]. f_equal.
  destruct H3 as [[H3 ->]|(c & r & H3 & Hc & H4)], H3' as [[H3' ->]|(c' & r' & H3' & Hc' & H4')]; rewrite H3, H3' in Sk; try discriminate Sk; [reflexivity|].
  injection Sk as -> ->. eapply IH; eassumption.
Qed.
End Separated.

Section Once.
Context (P : parsers) (SP : sparsers) (hf : str -> bool).
Notation written := (written P SP hf).
Notation arg_here := (fun ts e k => Forall (fun t => ~ comma t) (firstn k ts) /\ exists j, written (firstn k ts) e j /\ skipn j (firstn k ts) = []).

Lemma value_once ts v k v' k' : value_written P SP ts v k -> value_written P SP ts v' k' -> erase_value v = erase_value v' -> v = v' /\ k = k'.
Proof.
  intros H H' E. destruct H; inversion H'; subst; cbn [erase_value] in E; try discriminate E; try (split; congruence).
  all: try (match goal with A : _ = Some _, B : _ = Some _ |- _ => rewrite A in B; injection B; intros; subst; split; reflexivity end).
  injection E as E. apply erase_same_length in E. match goal with H : a ++ b = _ |- _ => apply prefix_same in H; [|exact E]; subst end. split; reflexivity.
Qed.
Lemma written_once e : forall ts k e' k', written ts e k -> written ts e' k' -> erase_expr e = erase_expr e' -> e = e' /\ k = k'.
Proof.
  induction e as [id v|id f s args raw IH] using sexpr_ind'; intros ts k e' k' H H' E.
  - inversion H as [? ? ? ? Hv _|]; subst. inversion H' as [? ? v' ? Hv' _|]; subst; [|discriminate E]. cbn in E. injection E as -> E.
    destruct (value_once _ _ _ _ _ Hv Hv' E) as [-> ->]. split; reflexivity.
  - inversion H as [|? rid ? ? inner gs r ? A1 A2 A3]; subst. inversion H' as [|? rid' ? ? inner' gs' r' args' B1 B2 B3]; subst; [discriminate E|].
    cbn [erase_expr option_map fst snd] in E. injection E as -> E1 ->. split; [|reflexivity]. f_equal.
    destruct A3 as [->|A3]; [destruct args'; [reflexivity|discriminate E1]|]. destruct B3 as [->|B3]; [destruct args; [reflexivity|discriminate E1]|].
    eapply (separated_once arg_here erase_expr); [|exact A3|exact B3|exact E1]. rewrite Forall_forall in *. intros x Hx ts0 j y j' (F & i & W & _) (F' & i' & W' & _) Ex S S'.
    destruct (piece_same ts0 j j' F F' S S') as [P1 P2]. rewrite <- P1 in W'. destruct (IH x Hx _ _ _ _ W W' Ex) as [-> _]. split; [reflexivity|exact P2].
Qed.
Lemma element_once t : once (element_written P SP hf) (map_tuple_value erase_expr) t.
Proof.
  induction t as [e|l IH] using tuple_ind'; intros ts k y k' H H' E _ _; inversion H; inversion H'; subst; cbn in E; try discriminate E.
  - injection E as E. match goal with A : written _ e _, B : written _ ?e' _ |- _ => destruct (written_once _ _ _ _ _ A B E) as [-> ->] end. split; reflexivity.
  - injection E as E. match goal with H : SGroup _ _ _ :: _ = SGroup _ _ _ :: _ |- _ => injection H; intros; subst end. split; [|reflexivity]. f_equal.
    eapply separated_once; eassumption.
Qed.
Lemma elements_once ts t t' : separated (element_written P SP hf) ts t -> separated (element_written P SP hf) ts t' -> map_tuple erase_expr t = map_tuple erase_expr t' -> t = t'.
Proof. intros. eapply separated_once; try eassumption. apply Forall_forall. intros x _. apply element_once. Qed.
Lemma source_once v : once (source_written P SP hf) plain_source v.
Proof.
  intros ts k y k' H H' E _ _. inversion H; inversion H'; subst; cbn in E; try discriminate E.
  - injection E as E. match goal with A : written _ ?e _, B : written _ ?e' _ |- _ => destruct (written_once _ _ _ _ _ A B E) as [-> ->] end. split; reflexivity.
  - injection E as E. match goal with H : SGroup _ _ _ :: _ = SGroup _ _ _ :: _ |- _ => injection H; intros; subst end. split; [|reflexivity]. f_equal.
    eapply elements_once; eassumption.
Qed.
Lemma loops_once ls : forall ts ls' rest rest', loops_written P SP hf ts ls rest -> loops_written P SP hf ts ls' rest' -> map plain_loop ls = map plain_loop ls' -> ls = ls' /\ rest = rest'.
Proof.
  induction ls as [|l ls IH]; intros ts [|l' ls'] rest rest' H H' E; try discriminate E.
  - inversion H; inversion H'; subst. split; reflexivity.
  - cbn [map] in E. injection E as E1 E2 E3. inversion H as [|s1 pat al s2 inner gs vs r ? ? A1 A2 A3]; subst. inversion H' as [|s1' pat' al' s2' inner' gs' vs' r' ? ? B1 B2 B3]; subst.
    destruct (IH _ _ _ _ A3 B3 E3) as [-> ->]. split; [|reflexivity]. f_equal. cbn in E1, E2. subst al'. f_equal.
    eapply (separated_once (source_written P SP hf) plain_source); try eassumption. apply Forall_forall. intros x _. apply source_once.
Qed.
Lemma definitions_once c ts items used rest : definitions_written P SP hf c ts items used rest ->
  forall c' items' used' rest', definitions_written P SP hf c' ts items' used' rest' -> erase_spec items = erase_spec items' -> items = items' /\ used = used' /\ rest = rest'.
Proof.
  assert (K : forall ts e k e' k', written ts e k -> written ts e' k' -> erase_expr e = erase_expr e' -> e = e' /\ k = k') by (intros; eapply written_once; eassumption).
  assert (S2 : forall c c' t, separator c t -> separator c' t -> c = c').
  { intros c1 c2 t (j & s & ->) (j' & s' & E). destruct c1, c2; congruence. }
  induction 1 as [x s j es ts e k Hx Hw Hk|x s j es ts e k sep r Hx Hw Hk Hs Hn|x s j es ts e k sep r items used rest Hx Hw Hk Hs Hn _ IH];
    intros c' items' used' rest' H' E; inversion H' as [? ? ? ? ? e' k' ? Hw' Hk'|? ? ? ? ? e' k' sep' r' ? Hw' Hk' Hs' Hn'|? ? ? ? ? e' k' sep' r' items0 used0 ? ? Hw' Hk' Hs' Hn' Hd']; subst;
    unfold erase_spec in E; cbn [map fst snd] in E; injection E; intros; clear E;
    match goal with E : erase_expr e = erase_expr e' |- _ => destruct (K _ _ _ _ _ Hw Hw' E) as [-> ->] end; rewrite Hk in Hk'; try discriminate Hk'.
  - repeat split.
  - injection Hk' as -> ->. rewrite (S2 _ _ _ Hs Hs'). repeat split.
  - injection Hk' as -> ->. contradiction.
  - injection Hk' as -> ->. contradiction.
  - injection Hk' as -> ->. rewrite (S2 _ _ _ Hs Hs'). match goal with E : map _ items = map _ items0 |- _ => destruct (IH _ _ _ _ Hd' E) as (-> & -> & ->) end. repeat split.
Qed.
Lemma header_once ts loops spec rest loops' spec' rest' : header_written P SP hf ts loops spec rest -> header_written P SP hf ts loops' spec' rest' ->
  option_map (map plain_loop) loops = option_map (map plain_loop) loops' -> option_map plain_spec spec = option_map plain_spec spec' ->
  loops = loops' /\ spec = spec' /\ rest = rest'.
Proof.
  intros (ls & ts1 & L & -> & S) (ls' & ts1' & L' & -> & S') E1 E2.
  assert (E1' : map plain_loop ls = map plain_loop ls') by (destruct ls, ls'; cbn in E1 |- *; congruence).
  destruct (loops_once _ _ _ _ _ L L' E1') as [-> ->]. split; [reflexivity|]. destruct spec as [[items used]|], spec' as [[items' used']|]; try discriminate E2.
  - destruct S as [c S], S' as [c' S']. cbn in S, S', E2. unfold plain_spec in E2. cbn in E2. injection E2 as E2 E3.
    destruct (definitions_once _ _ _ _ _ S _ _ _ _ S' E2) as (-> & -> & ->). split; reflexivity.
  - destruct S as [-> _], S' as [-> _]. split; reflexivity.
Qed.
Lemma function_once ts a b : function_written P SP hf ts a -> function_written P SP hf ts b -> plain_ast (map erase_stmt) a = plain_ast (map erase_stmt) b -> a = b.
Proof.
  intros (rest & k & H & B & _) (rest' & k' & H' & B' & _) E. unfold plain_ast in E. injection E as E1 E2 _. destruct a, b; cbn in *.
  destruct (header_once _ _ _ _ _ _ _ H H' E1 E2) as (-> & -> & ->). rewrite B in B'. injection B' as -> _. reflexivity.
Qed.
Lemma attribute_once ts item a b : attribute_written P SP hf ts item a -> attribute_written P SP hf ts item b -> plain_ast (map erase_stmt) a = plain_ast (map erase_stmt) b -> a = b.
Proof.
  intros (rest & H & B & _) (rest' & H' & B' & _) E. unfold plain_ast in E. injection E as E1 E2 _. destruct a, b; cbn in *.
  destruct (header_once _ _ _ _ _ _ _ H H' E1 E2) as (-> & -> & ->). rewrite B in B'. injection B' as ->. reflexivity.
Qed.

(** ** Ids do not matter *)
Lemma separated_map {A} (here here' : list stt -> A -> nat -> Prop) f xs : Forall (fun x => forall ts k, here ts x k -> here' ts (f x) k) xs ->
  forall ts, separated here ts xs -> separated here' ts (map f xs).
Proof.
  induction 1 as [|x xs Hx _ IH]; intros ts S; inversion S as [|? ? k Hn Hh Hk|? ? k c r ? Hh Hk Hc Hr]; subst; cbn [map]; [constructor|eapply separated_last; eauto|eapply separated_more; eauto].
Qed.
Lemma written_unnumbered e : forall ts k, written ts e k -> written ts (unnumbered e) k.
Proof.
  induction e as [id v|id f s args raw IH] using sexpr_ind'; intros ts k H.
  - inversion H; subst. constructor; assumption.
  - inversion H as [|? rid ? ? inner gs r ? A1 A2 A3]; subst. cbn [unnumbered option_map snd]. apply call_is_written; [exact A1|exact A2|].
    destruct A3 as [->|A3]; [left; reflexivity|right]. revert A3. apply separated_map. revert IH. apply Forall_impl. intros a Ha ts k (F & j & W & S).
    split; [exact F|]. exists j. auto.
Qed.
Lemma element_unnumbered t : forall ts k, element_written P SP hf ts t k -> element_written P SP hf ts (map_tuple_value unnumbered t) k.
Proof.
  induction t as [e|l IH] using tuple_ind'; intros ts k H; inversion H; subst; cbn [map_tuple_value].
  - constructor. apply written_unnumbered. assumption.
  - constructor. match goal with H : separated _ _ l |- _ => revert H end. apply separated_map. exact IH.
Qed.
Lemma source_unnumbered v ts k : source_written P SP hf ts v k -> source_written P SP hf ts (unnumbered_source v) k.
Proof.
  intros H. inversion H; subst; cbn [unnumbered_source]; constructor; [apply written_unnumbered; assumption|].
  match goal with H : separated _ _ _ |- _ => revert H end. apply separated_map. apply Forall_forall. intros x _. apply element_unnumbered.
Qed.
Notation unl := (fun l : sloop_item => {| sl_pattern := sl_pattern l; sl_values := map unnumbered_source (sl_values l) |}).
Notation uni := (fun i : sitem => (fst i, unnumbered (snd i))).
Lemma loops_unnumbered ts ls rest : loops_written P SP hf ts ls rest -> loops_written P SP hf ts (map unl ls) rest.
Proof.
  induction 1 as [|s1 pat al s2 inner gs vs r ls rest A1 A2 _ IH]; cbn [map]; constructor; try assumption. cbn. revert A2. apply separated_map.
  apply Forall_forall. intros x _ ts' k. apply source_unnumbered.
Qed.
Lemma definitions_unnumbered c ts items used rest : definitions_written P SP hf c ts items used rest -> definitions_written P SP hf c ts (map uni items) used rest.
Proof.
  induction 1; cbn [map fst snd].
  - econstructor; try eassumption. apply written_unnumbered. eassumption.
  - eapply last_written_separator; try eassumption. apply written_unnumbered. eassumption.
  - eapply more_written; try eassumption. apply written_unnumbered. eassumption.
Qed.
Lemma header_unnumbered ts a rest : header_written P SP hf ts (sa_loops a) (sa_spec a) rest -> header_written P SP hf ts (sa_loops (unnumbered_ast a)) (sa_spec (unnumbered_ast a)) rest.
Proof.
  intros (ls & ts1 & L & E & S). exists (map unl ls), ts1. split; [apply loops_unnumbered, L|]. cbn [unnumbered_ast sa_loops sa_spec]. rewrite E. split; [destruct ls; reflexivity|].
  destruct (sa_spec a) as [sp|]; [|exact S]. destruct S as [c S]. exists c. apply definitions_unnumbered, S.
Qed.
Lemma function_unnumbered ts a : function_written P SP hf ts a -> function_written P SP hf ts (unnumbered_ast a).
Proof.
  intros (rest & k & H & B & S). exists rest, k. split; [apply header_unnumbered, H|]. split; [exact B|]. destruct S as [S|(sep & c & S1 & S2 & S3)]; [left; exact S|].
  right. exists sep, c. split; [exact S1|]. split; [exact S2|]. intros sp E. cbn in E. destruct (sa_spec a) as [sp'|]; [|discriminate E]. injection E as <-. apply (S3 _ eq_refl).
Qed.
Lemma attribute_unnumbered ts item a : attribute_written P SP hf ts item a -> attribute_written P SP hf ts item (unnumbered_ast a).
Proof.
  intros (rest & H & B & S). exists rest. split; [apply header_unnumbered, H|]. split; [exact B|]. destruct S as [S|(sep & c & S1 & S2 & S3)]; [left; exact S|].
  right. exists sep, c. split; [exact S1|]. split; [exact S2|]. cbn. destruct (sa_spec a); [discriminate|exact S3].
Qed.

Lemma map_map_ext_Forall {A B C} (f : A -> B) (g : B -> C) (h : A -> C) l : Forall (fun x => g (f x) = h x) l -> map g (map f l) = map h l.
Proof. induction 1 as [|x l H _ IH]; [reflexivity|]. cbn. rewrite H, IH. reflexivity. Qed.
Lemma expr_plain e : SpecPrograms.erase (erase_expr e) = erase_expr (unnumbered e).
Proof.
  induction e as [id v|id f s args raw IH] using sexpr_ind'; [reflexivity|]. cbn [erase_expr SpecPrograms.erase unnumbered]. f_equal.
  - rewrite map_map, map_map. apply map_ext_Forall. exact IH.
  - destruct raw as [[rid ts]|]; reflexivity.
Qed.
Lemma tuple_plain t : map_tuple_value SpecPrograms.erase (map_tuple_value erase_expr t) = map_tuple_value erase_expr (map_tuple_value unnumbered t).
Proof. induction t as [e|l IH] using tuple_ind'; cbn; f_equal; [apply expr_plain|]. rewrite map_map, map_map. apply map_ext_Forall. exact IH. Qed.
Lemma ast_plain a : erase_ast (plain_ast (map erase_stmt) a) = plain_ast (map erase_stmt) (unnumbered_ast a).
Proof.
  unfold erase_ast, map_ast, plain_ast. cbn [ast_loops ast_spec ast_block unnumbered_ast sa_loops sa_spec sa_block]. f_equal.
  - destruct (sa_loops a) as [ls|]; [|reflexivity]. cbn [option_map]. f_equal. rewrite map_map, map_map. apply map_ext. intros [p vs]. unfold map_loop, plain_loop. cbn. f_equal.
    rewrite map_map, map_map. apply map_ext. intros [e|s t]; cbn; f_equal; [apply expr_plain|]. unfold map_tuple. rewrite map_map, map_map. apply map_ext. intros t'. apply tuple_plain.
  - destruct (sa_spec a) as [[items used]|]; [|reflexivity]. cbn [option_map]. f_equal. unfold map_spec, plain_spec. cbn. f_equal. unfold map_items, erase_spec.
    rewrite map_map, map_map. apply map_ext. intros [x e]. cbn. f_equal. apply expr_plain.
Qed.

(** ** Exactly *)
Context (LP : spanless_parsers P SP).
Lemma function_exactly n ts a : (func_input P hf (map erase ts) (plain_ast (map erase_stmt) a) /\ function_written P SP hf ts a) <->
  exists ast, sp_ast (sparse_func_macro P SP hf n ts) = inl ast /\ unnumbered_ast ast = a.
Proof.
  assert (Er := func_macro_erase P SP hf LP n ts). split.
  - intros [G W]. apply (func_spec P hf n) in G as (ast & E & G). rewrite <- Er in E. cbn [plain_parsed p_ast] in E. destruct (sp_ast (sparse_func_macro P SP hf n ts)) as [ast'|] eqn:E'; [|discriminate E].
    injection E as <-. exists ast'. split; [reflexivity|]. apply (function_once ts); [|exact W|].
    + apply function_unnumbered. eapply function_is. exact E'.
    + rewrite <- ast_plain. exact G.
  - intros (ast & E & <-). split; [|apply function_unnumbered; eapply function_is; exact E]. apply (func_spec P hf n). exists (plain_ast (map erase_stmt) ast). split; [|apply ast_plain].
    rewrite <- Er. cbn [plain_parsed p_ast]. rewrite E. reflexivity.
Qed.
Lemma attribute_exactly n ts item a : (attr_input P hf (map erase ts) (map erase item) (plain_ast (map erase_stmt) a) /\ attribute_written P SP hf ts item a) <->
  exists ast, sp_ast (sparse_attr_macro P SP hf n ts item) = inl ast /\ unnumbered_ast ast = a.
Proof.
  assert (Er := attr_macro_erase P SP hf LP n ts item). split.
  - intros [G W]. apply (attr_spec P hf n) in G as (ast & E & G). rewrite <- Er in E. cbn [plain_parsed p_ast] in E. destruct (sp_ast (sparse_attr_macro P SP hf n ts item)) as [ast'|] eqn:E'; [|discriminate E].
    injection E as <-. exists ast'. split; [reflexivity|]. apply (attribute_once ts item); [|exact W|].
    + apply attribute_unnumbered. eapply attribute_is. exact E'.
    + rewrite <- ast_plain. exact G.
  - intros (ast & E & <-). split; [|apply attribute_unnumbered; eapply attribute_is; exact E]. apply (attr_spec P hf n). exists (plain_ast (map erase_stmt) ast). split; [|apply ast_plain].
    rewrite <- Er. cbn [plain_parsed p_ast]. rewrite E. reflexivity.
Qed.
End Once.
