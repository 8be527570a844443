(** What becomes of raw identifiers ([r#type]) in the functions. *)
From Coq Require Import String.
From Verif Require Import Base BaseFacts Token Types Values Ast Env Eval FormatString SpecElab SpecCalls SpecFunctions SpecCasing SpecRawNames Normalize SpecNormalize NormalizeProofs ResolveFacts FunctionProofs
  Concrete RustLexer RustText RustInstance CasingProofs.
Open Scope list_scope.

Lemma idents_values : forall vs l, idents_of vs = Some l -> vs = map VIdent l.
Proof.
  induction vs as [|v vs IH]; intros l H; cbn [idents_of fold_right] in H; [injection H as <-; reflexivity|]. fold (idents_of vs) in H.
  destruct v; try discriminate. destruct (idents_of vs) as [l'|]; [|discriminate]. injection H as <-. cbn [map]. rewrite (IH l' eq_refl). reflexivity.
Qed.
Lemma idents_map l : idents_of (map VIdent l) = Some l.
Proof. induction l as [|x l IH]; [reflexivity|]. cbn [map idents_of fold_right]. fold (idents_of (map VIdent l)). rewrite IH. reflexivity. Qed.

Theorem raw_name_cased O seed n pre a id name lid v raw bs c c' x : refuses_raw_names O ->
  name = txt "upper" \/ name = txt "lower" -> lookup_value bs v = VIdent x -> raw_name x ->
  NoDup (item_ids (pre ++ [(a, ECall id name (plain [(lid, v)]) raw)])) -> ~ In a (map fst pre) ->
  make_substitutions O (new_initialized O seed n) {| spec_items := pre; is_comma_used := c |} = Ok bs ->
  make_substitutions O (new_initialized O seed n) {| spec_items := pre ++ [(a, ECall id name (plain [(lid, v)]) raw)]; is_comma_used := c' |} = Panic PIdentNew.
Proof.
  intros (Hr & Hu & Hl) Hname Hv Hx Hn Ha Hb. rewrite (function_call O seed n pre a id name _ raw bs c c' Hn Ha Hb). cbn [map snd]. rewrite Hv.
  destruct Hname as [-> | ->].
  - assert (E : call_meaning O seed (txt "upper") (option_map snd raw) [VIdent x] = identifier O (upper O x)) by reflexivity. rewrite E. unfold identifier. rewrite (Hr _ (Hu x Hx)). reflexivity.
  - assert (E : call_meaning O seed (txt "lower") (option_map snd raw) [VIdent x] = identifier O (lower O x)) by reflexivity. rewrite E. unfold identifier. rewrite (Hr _ (Hl x Hx)). reflexivity.
Qed.

Theorem raw_name_composed O seed n pre a id leaves raw bs c c' l x : refuses_raw_names O ->
  map (fun p => lookup_value bs (snd p)) leaves = map VIdent l -> In x l -> raw_name x ->
  NoDup (item_ids (pre ++ [(a, ECall id (txt "concat") (plain leaves) raw)])) -> ~ In a (map fst pre) ->
  make_substitutions O (new_initialized O seed n) {| spec_items := pre; is_comma_used := c |} = Ok bs ->
  make_substitutions O (new_initialized O seed n) {| spec_items := pre ++ [(a, ECall id (txt "concat") (plain leaves) raw)]; is_comma_used := c' |} = Panic PIdentNew.
Proof.
  intros (Hr & _) Hv Hin Hx Hn Ha Hb. rewrite (function_call O seed n pre a id _ _ raw bs c c' Hn Ha Hb), Hv.
  assert (E : call_meaning O seed (txt "concat") (option_map snd raw) (map VIdent l) = concat_meaning O (map VIdent l)) by reflexivity. rewrite E.
  destruct l as [|y l]; [destruct Hin|]. unfold concat_meaning. rewrite idents_map. cbn [map]. unfold identifier. rewrite Hr; [reflexivity|].
  apply in_concat. exists x. split; [exact Hin|exact Hx].
Qed.

(** ** The Rust instance *)
Lemma sign_cased f : f number_sign = number_sign -> forall x, raw_name x -> raw_name (map f x).
Proof. intros Hf x Hx. unfold raw_name. rewrite <- Hf. apply in_map, Hx. Qed.
Theorem rust_refuses : refuses_raw_names rust.
Proof.
  split; [|split; apply sign_cased; reflexivity]. intros [|c r]; [intros []|]. intros H. change (ident_ok rust (c :: r)) with (ident_start c && forallb ident_continue r).
  destruct (ident_start c) eqn:Ec; [|reflexivity]. cbn [andb]. destruct (forallb ident_continue r) eqn:E; [|reflexivity]. exfalso. rewrite forallb_forall in E.
  destruct H as [->|H]; [discriminate|]. specialize (E _ H). discriminate.
Qed.

(** Only what is between the last character that is not a letter or digit and a position matters
    for the words after it. *)
Lemma split_before : forall x b b', last_case b = last_case b' -> head_is is_alnum b = head_is is_alnum b' ->
  match b with [] => true | c :: _ => negb (is_alnum c) end = match b' with [] => true | c :: _ => negb (is_alnum c) end ->
  split_words b x = split_words b' x.
Proof.
  assert (Hb : forall b b' d r, last_case b = last_case b' -> match b with [] => true | c :: _ => negb (is_alnum c) end = match b' with [] => true | c :: _ => negb (is_alnum c) end ->
    begins_word b d r = begins_word b' d r) by (intros b b' d r H1 H2; unfold begins_word; rewrite H1, H2; reflexivity).
  induction x as [|c r IH]; intros b b' H1 H2 H3; [reflexivity|]. rewrite !split_cons.
  assert (H1' : last_case (c :: b) = last_case (c :: b')) by (cbn [last_case]; rewrite H1; reflexivity).
  rewrite (IH (c :: b) (c :: b') H1' eq_refl eq_refl). destruct (is_alnum c); [|reflexivity]. unfold put_before. destruct r as [|d r']; [reflexivity|].
  rewrite (Hb (c :: b) (c :: b') d r' H1' eq_refl). reflexivity.
Qed.
Theorem raw_words x : words (txt "r#" ++ x) = txt "r" :: words x.
Proof.
  unfold words. change (txt "r#" ++ x) with (114%N :: number_sign :: x). rewrite split_cons. change (is_alnum 114%N) with true. cbv iota.
  rewrite put_end; [|discriminate|reflexivity]. rewrite split_cons. change (is_alnum number_sign) with false. cbv iota. f_equal. apply split_before; reflexivity.
Qed.
Theorem raw_name_spellings x :
  heck_snake (txt "r#" ++ x) = txt "r" ++ match words x with [] => [] | _ => txt "_" ++ heck_snake x end /\
  heck_pascal (txt "r#" ++ x) = txt "R" ++ heck_pascal x /\ heck_camel (txt "r#" ++ x) = txt "r" ++ heck_pascal x.
Proof.
  rewrite !snake_is, !pascal_is, camel_is, raw_words. split; [|split; reflexivity]. cbn [map]. destruct (words x) as [|w ws]; reflexivity.
Qed.

(** ** normalize *)
Theorem raw_name_normalized O x :
  is_alphanumeric O underscore = false -> is_numeric O underscore = false ->
  is_alphanumeric O 114%N = true -> is_numeric O 114%N = false -> is_alphanumeric O number_sign = false ->
  Forall (fun c => is_alphanumeric O c = true \/ c = underscore) x -> x <> [] ->
  fn_normalize O (txt "r#" ++ x) =
  match drop_last_separator (is_alphanumeric O) x with [] => txt "r" | y => txt "r_" ++ y end.
Proof.
  intros U1 U2 Hr Hn Hs Hx Hne. unfold fn_normalize. rewrite normalize_spec by assumption. unfold normal_form.
  change (txt "r#" ++ x) with (114%N :: number_sign :: x). cbn [drop_while]. rewrite Hr. cbn [negb]. rewrite Hn. cbn [app].
  set (kp := keep (is_alphanumeric O) underscore).
  assert (Hkr : kp 114%N = true) by (unfold kp, keep; rewrite Hr; reflexivity).
  assert (Hks : kp number_sign = false) by (unfold kp, keep; rewrite Hs; reflexivity).
  assert (Hk : Forall (fun c => kp c = true) x).
  { eapply Forall_impl; [|exact Hx]. intros c [H | ->]; unfold kp, keep; [rewrite H; reflexivity|]. rewrite orb_comm. reflexivity. }
  assert (Hend : forall w, Forall (fun c => kp c = true) w -> w <> [] ->
    collapse (is_alphanumeric O) underscore false (drop_while_end (fun c => negb (kp c)) (114%N :: number_sign :: w)) = txt "r_" ++ w).
  { intros w Hw Hwn. destruct w as [|z w _] using rev_ind; [contradiction|].
    apply Forall_app in Hw as (Hw & Hz). inversion Hz as [|? ? Hz' _]; subst.
    change (114%N :: number_sign :: w ++ [z]) with ((114%N :: number_sign :: w) ++ [z]).
    rewrite drop_while_end_app_keep by (rewrite Hz'; reflexivity). cbn [app collapse]. fold kp. rewrite Hkr, Hks.
    rewrite collapse_clean; [reflexivity|]. apply Forall_app. split; assumption. }
  unfold drop_last_separator at 1. destruct x as [|z w _] using rev_ind; [contradiction|].
  change (114%N :: number_sign :: w ++ [z]) with ((114%N :: number_sign :: w) ++ [z]). rewrite rev_unit.
  unfold drop_last_separator. rewrite rev_unit. destruct (is_alphanumeric O z).
  - change ((114%N :: number_sign :: w) ++ [z]) with (114%N :: number_sign :: (w ++ [z])). rewrite Hend by assumption.
    destruct (w ++ [z]) eqn:E; [destruct w; discriminate E|reflexivity].
  - rewrite !rev_involutive. apply Forall_app in Hk as (Hw & _). destruct w as [|c w].
    + unfold drop_while_end. cbn [rev app drop_while]. rewrite Hks, Hkr. cbn [negb rev app collapse]. fold kp. rewrite Hkr. reflexivity.
    + apply Hend; [exact Hw|discriminate].
Qed.

(** ** concat with other kinds *)
Lemma not_idents vs v : In v vs -> (forall y, v <> VIdent y) -> idents_of vs = None.
Proof.
  intros Hin Hv. destruct (idents_of vs) as [l|] eqn:E; [|reflexivity]. apply idents_values in E as ->.
  apply in_map_iff in Hin as (y & <- & _). destruct (Hv y eq_refl).
Qed.
Lemma with_ident vs x : In (VIdent x) vs -> strings_of vs = None /\ ints_of vs = None.
Proof.
  unfold strings_of, ints_of. induction vs as [|v vs IH]; intros []; cbn [fold_right].
  - subst v. split; reflexivity.
  - destruct (IH H) as (-> & ->). destruct v; split; reflexivity.
Qed.
Theorem raw_name_mixed O seed n pre a id leaves raw bs c c' vs x v :
  map (fun p => lookup_value bs (snd p)) leaves = vs -> In (VIdent x) vs -> In v vs -> (forall y, v <> VIdent y) ->
  NoDup (item_ids (pre ++ [(a, ECall id (txt "concat") (plain leaves) raw)])) -> ~ In a (map fst pre) ->
  make_substitutions O (new_initialized O seed n) {| spec_items := pre; is_comma_used := c |} = Ok bs ->
  make_substitutions O (new_initialized O seed n) {| spec_items := pre ++ [(a, ECall id (txt "concat") (plain leaves) raw)]; is_comma_used := c' |} =
  match vs with
  | VIdent _ :: _ => match parse_str_ident O (List.concat (map (text_of O) vs)) with
                     | Some y => Ok (bs ++ [(a, VIdent y)])
                     | None => Err EvalError
                     end
  | _ => Ok (bs ++ [(a, VTokens (List.concat (map to_tokens vs)))])
  end.
Proof.
  intros Hv Hx Hin Hnot Hn Ha Hb. rewrite (function_call O seed n pre a id _ _ raw bs c c' Hn Ha Hb), Hv.
  assert (E : call_meaning O seed (txt "concat") (option_map snd raw) vs = concat_meaning O vs) by reflexivity. rewrite E.
  destruct (with_ident _ _ Hx) as (H2 & H3). pose proof (not_idents _ _ Hin Hnot) as H1.
  destruct vs as [|w vs]; [destruct Hx|]. unfold concat_meaning. rewrite H1, H2, H3. destruct w; try reflexivity.
  destruct (parse_str_ident O _); reflexivity.
Qed.
