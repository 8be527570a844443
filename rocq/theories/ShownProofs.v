(** What placeholders show. *)
From Coq Require Import String.
From Verif Require Import Base BaseFacts Token Types Values FormatString Concrete RustLexer RustGrammar RustInstance StreamWalker SubstituteIdents SpecSubst SpecFormat SpecShown FormatProofs WalkerProofs SubstFacts.
Open Scope list_scope.

Lemma placeholder_shown O lookup x v : nameable O x -> lookup x = Some v -> format_string O lookup (quoted x) = shown O v.
Proof.
  intros (Hne & Hx) Hl. assert (E : quoted x = render percent [PHole x 0] None) by (unfold quoted, render; cbn; rewrite !app_nil_r; reflexivity).
  rewrite E, format_meaning.
  - unfold meaning. cbn [map concat meaning1 repeat]. rewrite !app_nil_r.
    unfold vo. replace (name_of (is_whitespace O) x) with x; [rewrite Hl; reflexivity|].
    symmetry. unfold name_of. clear - Hx. induction Hx as [|c x (_ & H) _ IH]; [reflexivity|]. cbn [filter]. rewrite H. cbn [negb]. rewrite IH. reflexivity.
  - split; [|split; [cbn; auto|exact I]]. constructor; [|constructor]. split; [exact Hne|]. intros Hi. rewrite Forall_forall in Hx. exact (proj1 (Hx _ Hi) eq_refl).
Qed.
Lemma shown_printed O v : prints_leaves O ->
  match v with VPath _ | VLitStr _ _ => True | _ => shown O v = to_string O (to_tokens v) end.
Proof. intros (Hi & Hn). destruct v; try exact I; try reflexivity; cbn [shown to_tokens]; symmetry; auto. Qed.
Lemma ascii_prints : prints_leaves ascii.
Proof. split; reflexivity. Qed.
Lemma rust_prints : prints_leaves rust.
Proof. split; reflexivity. Qed.

(** ** Paths of the Rust instance *)
Definition angles (g r : list tt) : Prop := (opt (op "::") ;;; ch "<" ;;; nt_ NAngle) (g ++ r) = Some r.
Lemma names_head A ts l : names_of A ts l -> exists x r, ts = TIdent x :: r.
Proof. destruct 1; eauto. Qed.
Lemma colons_then ts x r : ts = TIdent x :: r -> (opt (op "::") ;;; ch "<" ;;; nt_ NAngle) (double_colon ++ ts) = None.
Proof. intros ->. reflexivity. Qed.
Lemma segments_names ts l : names_of angles ts l -> forall fuel, List.length ts < fuel -> segments fuel ts = l.
Proof.
  induction 1 as [x|x g Hg|x ts l H IH|x g ts l Hg H IH]; intros [|fuel] F; try (cbn in F; lia); cbn [segments].
  - reflexivity.
  - unfold angles in Hg. rewrite app_nil_r in Hg. rewrite Hg. reflexivity.
  - destruct (names_head _ _ _ H) as (y & r & E). rewrite (colons_then ts y r E). change (op "::" (double_colon ++ ts)) with (Some ts). cbn iota. rewrite IH; [reflexivity|]. cbn in F. lia.
  - unfold angles in Hg. rewrite Hg. change (op "::" (double_colon ++ ts)) with (Some ts). cbn iota. rewrite IH; [reflexivity|]. cbn in F. rewrite !app_length in F. cbn in F. lia.
Qed.
Lemma names_joined A ts l : names_of A ts l -> l <> [].
Proof. destruct 1; discriminate. Qed.
Lemma colons_shown x l : x ++ flat_map (fun y => txt "::" ++ y) l = with_colons (x :: l).
Proof. revert x. induction l as [|y l IH]; intros x; [apply app_nil_r|]. cbn [flat_map]. change (with_colons (x :: y :: l)) with (x ++ 58%N :: 58%N :: with_colons (y :: l)). rewrite <- IH, <- app_assoc. reflexivity. Qed.
Theorem path_shown ts l : names_of angles ts l -> shown rust (VPath ts) = with_colons l.
Proof.
  intros H. cbn [shown rust path_segments]. rewrite (segments_names ts l H) by lia. destruct l as [|x l]; [reflexivity|]. apply colons_shown.
Qed.
Theorem leading_colons_shown ts l : names_of angles ts l -> shown rust (VPath (double_colon ++ ts)) = with_colons l.
Proof.
  intros H. cbn [shown rust path_segments]. change (segments (S (List.length (double_colon ++ ts))) (double_colon ++ ts)) with (segments (S (S (List.length ts))) ts).
  rewrite (segments_names ts l H) by lia. destruct l as [|x l]; [reflexivity|]. apply colons_shown.
Qed.

(** ** Side by side *)
Theorem side_by_side O lookup N (parse : list tt -> option N) x v p n : nameable O x -> lookup x = Some v ->
  parse_lit_str O [TLit (LStr (quoted x) p)] = Some (quoted x, p) ->
  substitute_idents O lookup parse [TIdent x; TLit (LStr (quoted x) p)] = Ok n ->
  parse (to_tokens v ++ [TLit (LStr (shown O v) [])]) = Some n.
Proof.
  intros Hn Hl Hp H. apply substitutes in H. assert (E : substituted O lookup [TIdent x; TLit (LStr (quoted x) p)] = to_tokens v ++ [TLit (LStr (shown O v) [])]).
  { unfold substituted, replaced_stream. cbn [flat_map replaced]. unfold tokens_of, literal_of. rewrite Hl, Hp, (placeholder_shown O lookup x v Hn Hl). reflexivity. }
  rewrite E in H. exact H.
Qed.
