(** Proofs about lists of definitions. *)
From Coq Require Import String.
From Verif Require Import Base BaseFacts Token Types Values Ast Item Interpreter Parse SpecElab SpecParse ParseProofs ParseIds.
Open Scope list_scope.

Section Separators.
Context (P : parsers) (hf : str -> bool).
Let ann' := ann P hf.

Lemma ann_tok t : a_tok (ann P hf t) = t.
Proof. destruct t as [x|c j|l|[| | |] ts]; reflexivity. Qed.
Lemma toks_ann ts : toks (map ann' ts) = ts.
Proof. unfold toks. rewrite map_map. rewrite (map_ext _ (fun t => t)); [apply map_id|]. exact ann_tok. Qed.
Lemma skipn_ann k ts : skipn k (map ann' ts) = map ann' (skipn k ts).
Proof. apply skipn_map. Qed.

Lemma separator_kind t : is_separator t = true -> separates (is_comma t) t.
Proof.
  unfold is_separator, is_comma, is_semicolon, is_punct. destruct t as [x|c j|l|d ts]; try discriminate.
  destruct (N.eqb 44 c) eqn:E1; [apply N.eqb_eq in E1 as <-; intros _; constructor|].
  destruct (N.eqb 59 c) eqn:E2; [apply N.eqb_eq in E2 as <-; intros _; constructor|intros H; discriminate H].
Qed.
Lemma kind_separator c t : separates c t -> is_separator t = true /\ is_comma t = c.
Proof. intros []; split; reflexivity. Qed.

Lemma peek_ident_spec ts : peek_ident P (map ann' ts) = true <-> at_ident P ts.
Proof.
  unfold peek_ident, at_ident. destruct ts as [|t r]; cbn [map].
  - split; [discriminate|]. intros (x & r & H & _). discriminate.
  - pose proof (ann_tok t) as Ht. fold ann' in Ht. destruct (ann' t) as [t0 f1 f2 f3]. cbn in Ht. subst t0.
    destruct t as [x|c j|l|d ts]; split; try discriminate; try (intros (x' & r' & H & _); discriminate).
    + intros H. eauto.
    + intros (x' & r' & H & Hx). injection H as <- <-. exact Hx.
Qed.

Lemma spec_item_spec n ts n' d k u : parse_spec_item P hf n (map ann' ts) = (n', Some (d, k, u)) ->
  exists after, defines P hf n ts d u n' after /\ after = skipn k ts /\ 2 <= k /\ ends is_separator after = true.
Proof.
  unfold parse_spec_item. destruct ts as [|t ts]; [discriminate|]. cbn [map].
  pose proof (ann_tok t) as Ht. fold ann' in Ht. destruct (ann' t) as [t0 f1 f2 f3]. cbn in Ht. subst t0.
  destruct t as [x|c j|l|dl l]; try discriminate. destruct ts as [|eq r]; [discriminate|]. cbn [map].
  unfold ann' at 1. rewrite ann_tok. destruct (ident_allowed P x) eqn:Ex; [|discriminate]. cbn [andb].
  destruct (is_equals eq) eqn:Ee; [|discriminate].
  destruct eq as [y|c j|l|dl l]; try discriminate Ee. unfold is_equals, is_punct in Ee; apply N.eqb_eq in Ee as <-.
  destruct (parse_expr P hf n (map ann' r)) as [n1 [[e k1] u1]] eqn:Ep.
  rewrite skipn_ann, toks_ann. destruct (ends is_separator (skipn k1 r)) eqn:En; [|discriminate].
  intros H. injection H as <- <- <- <-. exists (skipn k1 r). split; [constructor; assumption|]. split; [reflexivity|]. split; [lia|exact En].
Qed.
Lemma spec_item_complete n ts d u n' after : defines P hf n ts d u n' after -> ends is_separator after = true ->
  exists k, 2 <= k /\ after = skipn k ts /\ parse_spec_item P hf n (map ann' ts) = (n', Some (d, k, u)).
Proof.
  intros H He. destruct H as [x j vs e k u n' Hx Hp]. exists (S (S k)). split; [lia|]. split; [reflexivity|].
  unfold parse_spec_item. cbn [map]. unfold ann' at 1 2. cbn [ann]. rewrite Hx. cbn [andb is_equals is_punct].
  unfold is_equals, is_punct. cbn [a_tok]. rewrite N.eqb_refl. unfold expr_at in Hp. fold ann' in Hp. rewrite Hp.
  rewrite skipn_ann, toks_ann, He. reflexivity.
Qed.

(** The skipping is a [skipn]. *)
Lemma parse_spec_skip k : forall l used n, parse_spec P hf l (Some k) used n = parse_spec P hf (skipn k l) (Some 0) used n.
Proof.
  induction k as [|k IH]; intros l used n; [reflexivity|]. destruct l as [|t r]; [reflexivity|]. cbn [skipn].
  rewrite <- IH. reflexivity.
Qed.

Lemma parse_spec_item_eq l used n : l <> [] ->
  parse_spec P hf l None used n =
  match parse_spec_item P hf n l with
  | (n1, Some (item, S k, u)) =>
      let (n2, rest) := parse_spec P hf (skipn (S k) l) (Some 0) used n1 in
      (n2, option_map (fun '(items, used', rest', u') => (item :: items, used', rest', u || u')) rest)
  | (n1, _) => (n1, None)
  end.
Proof.
  intros Hl. destruct l as [|t r]; [congruence|]. cbn [parse_spec skipn].
  destruct (parse_spec_item P hf n (t :: r)) as [n1 [[[item [|k]] u]|]]; try reflexivity.
  rewrite parse_spec_skip. reflexivity.
Qed.

Definition compatible (used : option bool) (c : bool) : Prop := used = None \/ used = Some c.

Lemma at_separator used t r n : parse_spec P hf (ann' t :: r) (Some 0) used n =
  if is_separator t then
    if match used with Some u => negb (Bool.eqb u (is_comma t)) | None => false end then (n, None)
    else if peek_ident P r then parse_spec P hf r None (Some (is_comma t)) n else (n, Some ([], Some (is_comma t), r, false))
  else (n, None).
Proof. cbn [parse_spec]. unfold ann'. rewrite ann_tok. reflexivity. Qed.

Lemma spec_sound len : forall ts used n n' items used' rest u, List.length ts <= len ->
  parse_spec P hf (map ann' ts) None used n = (n', Some (items, used', rest, u)) ->
  exists c trailing rest', rest = map ann' rest' /\ compatible used c /\ definition_list P hf c n ts items trailing u rest' /\
    used' = (if trailing then Some c else match items with [_] => used | _ => Some c end).
Proof.
  induction len as [|len IH]; intros ts used n n' items used' rest u Hlen H.
  { destruct ts; [discriminate H|cbn in Hlen; lia]. }
  assert (Hne : map ann' ts <> []) by (destruct ts; discriminate).
  rewrite parse_spec_item_eq in H by exact Hne.
  destruct (parse_spec_item P hf n (map ann' ts)) as [n1 [[[d [|k]] u1]|]] eqn:Ei; try discriminate H.
  apply spec_item_spec in Ei as (after & Hd & Ha & Hk & He).
  rewrite skipn_ann, <- Ha in H. destruct after as [|s after].
  - cbn in H. injection H as <- <- <- <- <-. exists (match used with Some c => c | None => true end), false, [].
    split; [reflexivity|]. split; [destruct used; unfold compatible; auto|]. split; [|reflexivity].
    exists n, ts, [], d, false, u1, n1, []. repeat split; auto. constructor. rewrite orb_false_r. reflexivity.
  - cbn [map] in H. rewrite at_separator in H. cbn [ends] in He. rewrite He in H.
    pose proof (separator_kind s He) as Hs.
    assert (Hc : compatible used (is_comma s)).
    { destruct used as [u0|]; [right|left; reflexivity]. destruct (Bool.eqb u0 (is_comma s)) eqn:E; [apply Bool.eqb_prop in E; congruence|discriminate H]. }
    destruct (match used with Some u => negb (Bool.eqb u (is_comma s)) | None => false end); [discriminate H|].
    destruct (peek_ident P (map ann' after)) eqn:Ep.
    + apply peek_ident_spec in Ep.
      destruct (parse_spec P hf (map ann' after) None (Some (is_comma s)) n1) as [n2 o] eqn:E2.
      destruct o as [[[[items2 used2] rest2] u2]|]; [|discriminate H]. injection H as <- <- <- <- <-.
      assert (Hl : List.length after <= len).
      { assert (List.length (s :: after) = List.length ts - S k) by (rewrite Ha, skipn_length; reflexivity). cbn in *. lia. }
      destruct (IH _ _ _ _ _ _ _ _ Hl E2) as (c & tr & rest' & -> & Hc2 & HL & Hu).
      assert (c = is_comma s) by (destruct Hc2; congruence). subst c.
      destruct HL as (m1 & ts1 & ds & d' & u3 & u4 & m2 & after' & HD & Hdd & -> & -> & Hend).
      exists (is_comma s), tr, rest'. split; [reflexivity|]. split; [exact Hc|]. split.
      * exists m1, ts1, (d :: ds), d', (u1 || u3), u4, m2, after'. repeat split; auto.
        -- econstructor; eassumption.
        -- rewrite orb_assoc. reflexivity.
      * rewrite Hu. destruct tr; [reflexivity|]. destruct ds as [|d1 [|d2 ds]]; reflexivity.
    + injection H as <- <- <- <- <-. exists (is_comma s), true, after. split; [reflexivity|]. split; [exact Hc|]. split; [|reflexivity].
      exists n, ts, [], d, false, u1, n1, (s :: after). repeat split; auto; [constructor|rewrite orb_false_r; reflexivity|].
      exists s. repeat split; auto. intros Hi. apply peek_ident_spec in Hi. congruence.
Qed.

Lemma list_step c n ts d u n1 s ts1 used : defines P hf n ts d u n1 (s :: ts1) -> separates c s -> compatible used c ->
  parse_spec P hf (map ann' ts) None used n =
  if peek_ident P (map ann' ts1) then
    let (n2, rest) := parse_spec P hf (map ann' ts1) None (Some c) n1 in
    (n2, option_map (fun '(items, used', rest', u') => (d :: items, used', rest', u || u')) rest)
  else (n1, Some ([d], Some c, map ann' ts1, u || false)).
Proof.
  intros Hd Hs Hc. pose proof (kind_separator _ _ Hs) as (Hs1 & Hs2).
  destruct (spec_item_complete _ _ _ _ _ _ Hd) as (k & Hk & Ha & Hi); [exact Hs1|].
  assert (Hne : map ann' ts <> []) by (destruct Hd; discriminate).
  rewrite parse_spec_item_eq by exact Hne. rewrite Hi. destruct k as [|k]; [lia|].
  rewrite skipn_ann, <- Ha. cbn [map]. rewrite at_separator, Hs1, Hs2.
  destruct Hc as [->| ->]; [|rewrite Bool.eqb_reflx; cbn [negb]]; destruct (peek_ident P (map ann' ts1)); reflexivity.
Qed.

Lemma spec_complete c n ts ds u1 n1 ts1 : definitions P hf c n ts ds u1 n1 ts1 -> forall used, compatible used c ->
  parse_spec P hf (map ann' ts) None used n =
  let (n2, rest) := parse_spec P hf (map ann' ts1) None (match ds with [] => used | _ => Some c end) n1 in
  (n2, option_map (fun '(items, used', rest', u') => (ds ++ items, used', rest', u1 || u')) rest).
Proof.
  induction 1 as [n ts|n ts d u n1 s ts1 ds u' n2 ts2 Hd Hs Hi _ IH]; intros used Hc.
  - destruct (parse_spec P hf (map ann' ts) None used n) as [n2 [[[[a b] c'] d]|]]; reflexivity.
  - rewrite (list_step c n ts d u n1 s ts1 used Hd Hs Hc). apply peek_ident_spec in Hi. rewrite Hi.
    rewrite (IH (Some c) (or_intror eq_refl)).
    replace (match ds with [] => Some c | _ :: _ => Some c end) with (Some c) by (destruct ds; reflexivity).
    destruct (parse_spec P hf (map ann' ts2) None (Some c) n2) as [n3 [[[[a b] c'] d']|]]; cbn [option_map app]; [|reflexivity].
    rewrite orb_assoc. reflexivity.
Qed.

Lemma at_ident_dec ts : {at_ident P ts} + {~ at_ident P ts}.
Proof.
  destruct (peek_ident P (map ann' ts)) eqn:E; [left; apply peek_ident_spec; exact E|].
  right. intros H. apply peek_ident_spec in H. congruence.
Qed.

Lemma list_accepted c n ts items trailing u rest : definition_list P hf c n ts items trailing u rest ->
  exists n', parse_spec P hf (map ann' ts) None None n =
    (n', Some (items, if trailing then Some c else match items with [_] => None | _ => Some c end, map ann' rest, u)).
Proof.
  intros (n1 & ts1 & ds & d & u1 & u2 & n2 & after & HD & Hd & -> & -> & Hend).
  rewrite (spec_complete _ _ _ _ _ _ _ HD None (or_introl eq_refl)).
  destruct trailing.
  - destruct Hend as (s & -> & Hs & Hni).
    rewrite (list_step c _ _ _ _ _ _ _ _ Hd Hs) by (destruct ds; unfold compatible; auto).
    destruct (peek_ident P (map ann' rest)) eqn:E; [exfalso; apply Hni; apply peek_ident_spec; exact E|].
    eexists. cbn [option_map]. rewrite orb_false_r. reflexivity.
  - destruct Hend as (-> & ->).
    destruct (spec_item_complete _ _ _ _ _ _ Hd eq_refl) as (k & Hk & Ha & Hi).
    assert (Hne : map ann' ts1 <> []) by (destruct Hd; discriminate).
    rewrite parse_spec_item_eq by exact Hne. rewrite Hi. destruct k as [|k]; [lia|].
    rewrite skipn_ann, <- Ha. cbn [map parse_spec option_map]. rewrite orb_false_r. eexists.
    destruct ds as [|d1 [|d2 ds]]; reflexivity.
Qed.

Lemma list_iff n ts items used rest u :
  (exists n', parse_spec P hf (map ann' ts) None None n = (n', Some (items, used, map ann' rest, u))) <->
  exists c trailing, definition_list P hf c n ts items trailing u rest /\
    used = (if trailing then Some c else match items with [_] => None | _ => Some c end).
Proof.
  split.
  - intros (n' & H). destruct (spec_sound _ _ _ _ _ _ _ _ _ (le_n _) H) as (c & tr & rest' & Hr & _ & HL & Hu).
    assert (rest = rest') by (rewrite <- (toks_ann rest), Hr; apply toks_ann). subst rest'. exists c, tr. auto.
  - intros (c & tr & HL & ->). apply list_accepted. exact HL.
Qed.

(** The other kind of separator after a definition. *)
Lemma mixing_fails c n ts ds u n1 ts1 d u' n2 s rest : definitions P hf c n ts ds u n1 ts1 -> ds <> [] ->
  defines P hf n1 ts1 d u' n2 (s :: rest) -> separates (negb c) s ->
  snd (parse_spec P hf (map ann' ts) None None n) = None.
Proof.
  intros HD Hne Hd Hs. rewrite (spec_complete _ _ _ _ _ _ _ HD None (or_introl eq_refl)).
  destruct ds as [|d0 ds]; [congruence|].
  pose proof (kind_separator _ _ Hs) as (Hs1 & Hs2).
  destruct (spec_item_complete _ _ _ _ _ _ Hd) as (k & Hk & Ha & Hi); [exact Hs1|].
  assert (Hne' : map ann' ts1 <> []) by (destruct Hd; discriminate).
  rewrite parse_spec_item_eq by exact Hne'. rewrite Hi. destruct k as [|k]; [lia|].
  rewrite skipn_ann, <- Ha. cbn [map]. rewrite at_separator, Hs1, Hs2.
  destruct c; cbn; reflexivity.
Qed.

(** Calls are read alone, whatever follows. *)
Lemma call_alone f args follow : ident_allowed P f = true -> hf f = true -> stands_alone P hf follow [TIdent f; TGroup Paren args].
Proof.
  intros H1 H2 n r _. unfold expr_at, parse_expr. cbn [app map ann]. unfold parse_call. rewrite H1, H2. cbn [andb a_args].
  destruct (parse_args P hf (map (ann P hf) args) n) as [n1 es]. eexists. eexists. reflexivity.
Qed.

Lemma text_defines c x vs n r : ident_allowed P x = true -> stands_alone P hf (before c) vs -> before c r ->
  exists e n', value_of P hf c (x, vs) (x, e) /\ defines P hf n (definition_text (x, vs) ++ r) (x, e) false n' r.
Proof.
  intros Hx Hv Hr. destruct (Hv n r Hr) as (n' & e & He). exists e, n'. split; [split; [reflexivity|exists n, n', r; auto]|].
  cbn [definition_text fst snd app].
  pose proof (defines_ P hf n x false (vs ++ r) e (List.length vs) false n' Hx He) as H.
  rewrite skipn_app, skipn_all, Nat.sub_diag in H. exact H.
Qed.

Lemma sep_separates c : separates c (sep c).
Proof. destruct c; constructor. Qed.

Lemma text_accepted c ds trailing rest : ds <> [] ->
  Forall (fun d => ident_allowed P (fst d) = true /\ stands_alone P hf (before c) (snd d)) ds ->
  (if trailing : bool then ~ at_ident P rest else rest = []) ->
  forall n, exists items, Forall2 (value_of P hf c) ds items /\
    definition_list P hf c n (list_text c ds ++ (if trailing then sep c :: rest else rest)) items trailing false rest.
Proof.
  intros Hne HF Hend. induction HF as [|[x vs] r (Hx & Hv) Hr IH]; [congruence|]. intros n. cbn [fst snd] in *.
  destruct r as [|d2 r].
  - assert (Hb : before c (if trailing then sep c :: rest else rest)).
    { destruct trailing; [right; exists (sep c), rest; split; [reflexivity|apply sep_separates]|left; exact Hend]. }
    destruct (text_defines c x vs n _ Hx Hv Hb) as (e & n' & Hval & Hd).
    exists [(x, e)]. split; [constructor; [exact Hval|constructor]|]. cbn [list_text].
    exists n, (definition_text (x, vs) ++ (if trailing then sep c :: rest else rest)), [], (x, e), false, false, n'.
    exists (if trailing then sep c :: rest else rest). repeat split; auto; [constructor|].
    destruct trailing; [exists (sep c); split; [reflexivity|split; [apply sep_separates|exact Hend]]|auto].
  - set (tail := list_text c (d2 :: r) ++ (if trailing then sep c :: rest else rest)).
    destruct (text_defines c x vs n (sep c :: tail) Hx Hv) as (e & n' & Hval & Hd).
    { right. exists (sep c), tail. split; [reflexivity|apply sep_separates]. }
    destruct (IH ltac:(discriminate) n') as (items & Hm & HL).
    exists ((x, e) :: items). split; [constructor; assumption|].
    destruct HL as (n1 & ts1 & ds0 & d & u1 & u2 & n2 & after & HD & Hdd & -> & Hu & He).
    exists n1, ts1, ((x, e) :: ds0), d, (false || u1), u2, n2, after.
    replace (list_text c ((x, vs) :: d2 :: r) ++ (if trailing then sep c :: rest else rest)) with (definition_text (x, vs) ++ sep c :: tail)
      by (subst tail; cbn [list_text]; rewrite <- app_assoc; reflexivity).
    repeat split; auto. econstructor; [exact Hd|apply sep_separates| |exact HD].
    inversion Hr as [|? ? (Hx2 & _) _]; subst. exists (fst d2). destruct d2 as [x2 vs2], r; eexists; split; try reflexivity; exact Hx2.
Qed.

(** ** Texts that start with a definition *)
Lemma header_of_list n ts : ident_allowed P (txt "for") = false -> at_ident P ts ->
  parse_header P hf n (map ann' ts) =
  match snd (parse_spec P hf (map ann' ts) None None n) with
  | Some (items, used, l2, u2) => Some (None, Some {| spec_items := items; is_comma_used := used |}, l2, u2)
  | None => None
  end.
Proof.
  intros Hf (x & r & -> & Hx). unfold parse_header.
  assert (E : parse_loops P hf (map ann' (TIdent x :: r)) n = (n, Some ([], map ann' (TIdent x :: r), false))).
  { cbn [map parse_loops]. unfold ann' at 1. cbn [ann a_tok]. unfold is_word.
    destruct (str_eqb (txt "for") x) eqn:Ex; [apply str_eqb_eq in Ex; congruence|reflexivity]. }
  rewrite E. cbn [map]. unfold ann' at 1. cbn [ann peek_ident]. rewrite Hx. reflexivity.
Qed.
Lemma list_text_ident c d ds r : ident_allowed P (fst d) = true -> at_ident P (list_text c (d :: ds) ++ r).
Proof. intros H. exists (fst d). destruct ds; eexists; split; try reflexivity; exact H. Qed.

Lemma func_list c n ds body block trailing :
  let end_ := if trailing : bool then [sep c] else [] in
  ident_allowed P (txt "for") = false -> ds <> [] ->
  Forall (fun d => ident_allowed P (fst d) = true /\ stands_alone P hf (before c) (snd d)) ds ->
  pre_block P (TGroup Brace body :: end_) = Some (block, 1, false) ->
  exists items, Forall2 (value_of P hf c) ds items /\
    p_ast (parse_func_macro P hf n (list_text c ds ++ sep c :: TGroup Brace body :: end_)) =
    Ok (Some {| ast_loops := None; ast_spec := Some {| spec_items := items; is_comma_used := Some c |}; ast_block := block |}).
Proof.
  intros end_ Hfor Hne HF Hb.
  destruct (text_accepted c ds true (TGroup Brace body :: end_) Hne HF) with (n := n) as (items & Hv & HL).
  { intros (x & r & H & _). discriminate H. }
  exists items. split; [exact Hv|]. destruct (list_accepted _ _ _ _ _ _ _ HL) as (n' & Hp).
  unfold parse_func_macro. fold ann'. rewrite header_of_list; [|exact Hfor|].
  2: { destruct ds as [|d ds]; [congruence|]. inversion HF as [|? ? (Hd & _) _]; subst. apply list_text_ident; exact Hd. }
  rewrite Hp. cbn [snd]. rewrite toks_ann, Hb. unfold end_. destruct trailing; [|reflexivity].
  cbn [skipn]. destruct c; reflexivity.
Qed.

Lemma func_list_trailing_mixed c n ds body rest block :
  ident_allowed P (txt "for") = false -> ds <> [] ->
  Forall (fun d => ident_allowed P (fst d) = true /\ stands_alone P hf (before c) (snd d)) ds ->
  pre_block P (TGroup Brace body :: sep (negb c) :: rest) = Some (block, 1, false) ->
  p_ast (parse_func_macro P hf n (list_text c ds ++ sep c :: TGroup Brace body :: sep (negb c) :: rest)) = Ok None.
Proof.
  intros Hfor Hne HF Hb.
  destruct (text_accepted c ds true (TGroup Brace body :: sep (negb c) :: rest) Hne HF) with (n := n) as (items & Hv & HL).
  { intros (x & r & H & _). discriminate H. }
  destruct (list_accepted _ _ _ _ _ _ _ HL) as (n' & Hp).
  unfold parse_func_macro. fold ann'. rewrite header_of_list; [|exact Hfor|].
  2: { destruct ds as [|d ds]; [congruence|]. inversion HF as [|? ? (Hd & _) _]; subst. apply list_text_ident; exact Hd. }
  rewrite Hp. cbn [snd]. rewrite toks_ann, Hb. destruct c; reflexivity.
Qed.

(** Two definitions or more, then the other separator. *)
Lemma text_mixed c ds rest : 2 <= List.length ds ->
  Forall (fun d => ident_allowed P (fst d) = true /\ stands_alone P hf (fun r => before true r \/ before false r) (snd d)) ds ->
  forall n, snd (parse_spec P hf (map ann' (list_text c ds ++ sep (negb c) :: rest)) None None n) = None.
Proof.
  intros Hlen HF n.
  assert (Hb : forall c' r, before c' (sep c' :: r)) by (intros c' r; right; exists (sep c'), r; split; [reflexivity|apply sep_separates]).
  assert (Go : forall ds, ds <> [] ->
    Forall (fun d => ident_allowed P (fst d) = true /\ stands_alone P hf (fun r => before true r \/ before false r) (snd d)) ds ->
    forall n, exists items u n1 ts1 d n2, definitions P hf c n (list_text c ds ++ sep (negb c) :: rest) items u n1 ts1 /\
      List.length items = List.length ds - 1 /\ defines P hf n1 ts1 d false n2 (sep (negb c) :: rest)).
  { clear n ds Hlen HF. intros ds Hne HF. induction HF as [|[x vs] r (Hx & Hv) Hr IH]; [congruence|]. intros n. cbn [fst snd] in *.
    assert (Hd : forall c' tail n, exists e n', defines P hf n (definition_text (x, vs) ++ sep c' :: tail) (x, e) false n' (sep c' :: tail)).
    { intros c' tail n0. destruct (Hv n0 (sep c' :: tail)) as (n' & e & He); [destruct c'; auto|]. exists e, n'.
      cbn [definition_text fst snd app].
      pose proof (defines_ P hf n0 x false (vs ++ sep c' :: tail) e (List.length vs) false n' Hx He) as H.
      rewrite skipn_app, skipn_all, Nat.sub_diag in H. exact H. }
    destruct r as [|d2 r].
    - destruct (Hd (negb c) rest n) as (e & n' & H). exists [], false, n, (definition_text (x, vs) ++ sep (negb c) :: rest), (x, e), n'.
      split; [constructor|]. split; [reflexivity|exact H].
    - set (tail := list_text c (d2 :: r) ++ sep (negb c) :: rest).
      destruct (Hd c tail n) as (e & n' & H).
      destruct (IH ltac:(discriminate) n') as (items & u & n1 & ts1 & d & n2 & HD & Hl & Hdd).
      exists ((x, e) :: items), (false || u), n1, ts1, d, n2. split; [|split; [cbn in *; lia|exact Hdd]].
      replace (list_text c ((x, vs) :: d2 :: r) ++ sep (negb c) :: rest) with (definition_text (x, vs) ++ sep c :: tail)
        by (subst tail; cbn [list_text]; rewrite <- app_assoc; reflexivity).
      econstructor; [exact H|apply sep_separates| |exact HD].
      inversion Hr as [|? ? (Hx2 & _) _]; subst. apply list_text_ident; exact Hx2. }
  destruct (Go ds ltac:(destruct ds; cbn in Hlen; [lia|discriminate]) HF n) as (items & u & n1 & ts1 & d & n2 & HD & Hl & Hd).
  eapply mixing_fails; [exact HD| |exact Hd|apply sep_separates]. destruct items; [cbn in Hl; lia|discriminate].
Qed.
Lemma func_mixed c ds rest n : ident_allowed P (txt "for") = false -> 2 <= List.length ds ->
  Forall (fun d => ident_allowed P (fst d) = true /\ stands_alone P hf (fun r => before true r \/ before false r) (snd d)) ds ->
  p_ast (parse_func_macro P hf n (list_text c ds ++ sep (negb c) :: rest)) = Ok None /\
  (forall item, p_ast (parse_attr_macro P hf n (list_text c ds ++ sep (negb c) :: rest) item) = Ok None).
Proof.
  intros Hfor Hlen HF.
  assert (E : parse_header P hf n (map ann' (list_text c ds ++ sep (negb c) :: rest)) = None).
  { rewrite header_of_list; [|exact Hfor|].
    - rewrite text_mixed by assumption. reflexivity.
    - destruct ds as [|d ds]; [cbn in Hlen; lia|]. inversion HF as [|? ? (Hd & _) _]; subst. apply list_text_ident; exact Hd. }
  unfold parse_func_macro, parse_attr_macro. fold ann'. rewrite E. split; reflexivity.
Qed.

Lemma attr_list c n ds item block trailing :
  ident_allowed P (txt "for") = false -> ds <> [] ->
  Forall (fun d => ident_allowed P (fst d) = true /\ stands_alone P hf (before c) (snd d)) ds ->
  pre_block P [TGroup Brace item] = Some (block, 1, false) ->
  exists items used, Forall2 (value_of P hf c) ds items /\
    p_ast (parse_attr_macro P hf n (list_text c ds ++ (if trailing : bool then [sep c] else [])) item) =
    Ok (Some {| ast_loops := None; ast_spec := Some {| spec_items := items; is_comma_used := used |}; ast_block := block |}).
Proof.
  intros Hfor Hne HF Hb.
  destruct (text_accepted c ds trailing [] Hne HF) with (n := n) as (items & Hv & HL).
  { destruct trailing; [|reflexivity]. intros (x & r & H & _). discriminate H. }
  destruct (list_accepted _ _ _ _ _ _ _ HL) as (n' & Hp).
  exists items. eexists. split; [exact Hv|]. unfold parse_attr_macro. fold ann'. rewrite header_of_list; [|exact Hfor|].
  2: { destruct ds as [|d ds]; [congruence|]. inversion HF as [|? ? (Hd & _) _]; subst. apply list_text_ident; exact Hd. }
  rewrite Hp. cbn [snd toks map skip_separator]. rewrite Hb. reflexivity.
Qed.

(** ** compose! *)
Lemma func_macro_trailing n ts loops spec l u1 block k u2 t r s c :
  parse_header P hf n (map ann' ts) = Some (loops, Some spec, map ann' l, u1) -> is_comma_used spec = Some c ->
  pre_block P l = Some (block, k, u2) -> skipn k l = t :: r -> separates s t -> s <> c ->
  p_ast (parse_func_macro P hf n ts) = Ok None.
Proof.
  intros Hh Hc Hb Hk Hs Hne. unfold parse_func_macro. fold ann'. rewrite Hh, toks_ann, Hb, Hk.
  destruct (kind_separator _ _ Hs) as (H1 & H2). unfold trailing_mixed. rewrite H1, H2, Hc.
  destruct s, c; try congruence; reflexivity.
Qed.
Lemma func_macro_accepts n ts loops spec l block k t r :
  parse_header P hf n (map ann' ts) = Some (loops, Some spec, map ann' l, false) ->
  pre_block P l = Some (block, k, false) -> skipn k l = t :: r ->
  (exists c, is_comma_used spec = Some c /\ separates c t) -> r = [] ->
  p_ast (parse_func_macro P hf n ts) = Ok (Some {| ast_loops := loops; ast_spec := Some spec; ast_block := block |}).
Proof.
  intros Hh Hb Hk (c & Hc & Hs) ->. unfold parse_func_macro. fold ann'. rewrite Hh, toks_ann, Hb, Hk.
  destruct (kind_separator _ _ Hs) as (H1 & H2). unfold trailing_mixed. rewrite H1, H2, Hc.
  destruct c; reflexivity.
Qed.
End Separators.
