(** What is hashed. *)
From Coq Require Import String ZArith ZifyN.
From Verif Require Import Base Token Types Values Env RustText SpecHash SpecCalls MoreCallFacts.
Open Scope list_scope.
Ltac Zify.zify_post_hook ::= Z.div_mod_to_equations.

Lemma continued_mod n : continued (128 + n mod 64) = Some (n mod 64)%N.
Proof.
  unfold continued. pose proof (N.mod_lt n 64 ltac:(discriminate)) as H. revert H. generalize (n mod 64)%N. intros m H.
  assert (E1 : (128 <=? 128 + m)%N = true) by (apply N.leb_le; lia). assert (E2 : (128 + m <? 192)%N = true) by (apply N.ltb_lt; lia).
  rewrite E1, E2. cbn [andb]. f_equal. lia.
Qed.
Ltac decide_lt := repeat match goal with
  | |- context [(?a <? ?b)%N] => first [replace (a <? b)%N with true by (symmetry; apply N.ltb_lt; lia) | replace (a <? b)%N with false by (symmetry; apply N.ltb_ge; lia)]
  end.
Lemma decoded_char c r x : is_char c -> decoded_text r = Some x -> decoded_text (utf8 c ++ r) = Some (c :: x).
Proof.
  unfold is_char, utf8. intros Hc Hr.
  destruct (N.ltb_spec c 128) as [H|H].
  { cbn [app decoded_text]. decide_lt. rewrite Hr. reflexivity. }
  destruct (N.ltb_spec c 2048) as [H2|H2].
  { cbn [app decoded_text]. decide_lt. rewrite continued_mod, Hr. do 2 f_equal. lia. }
  destruct (N.ltb_spec c 65536) as [H3|H3].
  { cbn [app decoded_text]. decide_lt. rewrite !continued_mod, Hr. do 2 f_equal. lia. }
  cbn [app decoded_text]. decide_lt. rewrite !continued_mod, Hr. do 2 f_equal. lia.
Qed.
Lemma decoded_chars x : Forall is_char x -> decoded_text (flat_map utf8 x ++ [255%N]) = Some x.
Proof.
  induction 1 as [|c x Hc _ IH]; [reflexivity|]. cbn [flat_map]. rewrite <- app_assoc. apply decoded_char; assumption.
Qed.
Lemma bytes_value k : forall x, (x < 256 ^ N.of_nat k)%N -> little_endian (bytes_of k x) = x.
Proof.
  induction k as [|k IH]; intros x Hx; [cbn in *; lia|]. cbn [bytes_of little_endian]. rewrite IH.
  - pose proof (N.div_mod x 256 ltac:(discriminate)). lia.
  - apply N.div_lt_upper_bound; [discriminate|]. rewrite <- N.pow_succ_r'. replace (N.succ (N.of_nat k)) with (N.of_nat (S k)) by lia. exact Hx.
Qed.
Lemma decoded_message seed x : (seed < 2 ^ 64)%N -> Forall is_char x -> decoded (hashed_bytes seed x) = Some (seed, x).
Proof.
  intros Hs Hx. unfold hashed_bytes. pose proof (bytes_value 8 seed Hs) as H.
  assert (Hl : List.length (bytes_of 8 seed) = 8) by reflexivity. revert H Hl. generalize (bytes_of 8 seed). intros l H Hl.
  destruct l as [|b0 [|b1 [|b2 [|b3 [|b4 [|b5 [|b6 [|b7 [|]]]]]]]]]; try discriminate Hl. cbn [app decoded]. rewrite decoded_chars by exact Hx.
  cbn [option_map]. do 2 f_equal. cbn [little_endian] in H. rewrite <- H. clear.
  change (2 ^ 8)%N with 256%N. change (2 ^ 16)%N with (256 * 256)%N. change (2 ^ 24)%N with (256 * 256 * 256)%N. change (2 ^ 32)%N with (256 * 256 * 256 * 256)%N.
  change (2 ^ 40)%N with (256 * 256 * 256 * 256 * 256)%N. change (2 ^ 48)%N with (256 * 256 * 256 * 256 * 256 * 256)%N.
  change (2 ^ 56)%N with (256 * 256 * 256 * 256 * 256 * 256 * 256)%N. ring.
Qed.

Lemma lxor_below a b : (a < 2 ^ 64 -> b < 2 ^ 64 -> N.lxor a b < 2 ^ 64)%N.
Proof.
  intros Ha Hb. destruct (N.eq_dec (N.lxor a b) 0) as [E|E]; [rewrite E; reflexivity|].
  apply N.log2_lt_pow2; [lia|]. eapply N.le_lt_trans; [apply N.log2_lxor|].
  assert (H : forall x, (x < 2 ^ 64 -> N.log2 x < 64)%N).
  { intros x Hx. destruct (N.eq_dec x 0) as [E0|E0]; [rewrite E0; reflexivity|]. apply N.log2_lt_pow2; [lia|exact Hx]. }
  apply N.max_lub_lt; apply H; assumption.
Qed.
Lemma w64_below x : (w64 x < 2 ^ 64)%N.
Proof. unfold w64. change 18446744073709551615%N with (N.ones 64). rewrite N.land_ones. apply N.mod_lt. discriminate. Qed.
Lemma sip13_below l : (sip13 l < 2 ^ 64)%N.
Proof.
  assert (H : forall s, let t := sip_round s in (v0 t < 2 ^ 64 /\ v1 t < 2 ^ 64 /\ v2 t < 2 ^ 64 /\ v3 t < 2 ^ 64)%N).
  { intros s. cbn zeta. unfold sip_round. cbn [v0 v1 v2 v3]. repeat split; repeat (apply lxor_below || apply w64_below). }
  unfold sip13. match goal with |- context [sip_round (sip_round (sip_round ?x))] => destruct (H (sip_round (sip_round x))) as (H0 & H1 & H2 & H3) end.
  apply lxor_below; (apply lxor_below; assumption).
Qed.
Lemma same_bytes seed seed' x y : (seed < 2 ^ 64)%N -> (seed' < 2 ^ 64)%N -> Forall is_char x -> Forall is_char y ->
  hashed_bytes seed x = hashed_bytes seed' y -> seed = seed' /\ x = y.
Proof.
  intros H1 H2 H3 H4 H. pose proof (decoded_message _ _ H1 H3) as E. rewrite H, decoded_message in E by assumption. injection E as <- <-. split; reflexivity.
Qed.
Lemma decimal_inj a b : decimal a = decimal b -> a = b.
Proof. intros H. rewrite <- (decimal_value a), H. apply decimal_value. Qed.

(** [hash] with this hasher *)
Section Calls.
Context (O : oracles) (HO : forall seed x, hash64 O seed x = sip_hash seed x).
Definition hashed_text (v : value) : str := match v with VLitStr x _ => x | VIdent x => x | _ => text_of O v end.
Lemma hash_name seed v a : hash_meaning O seed v = Ok a ->
  a = (let d := decimal (sip13 (hashed_bytes seed (hashed_text v))) in match v with VLitStr _ _ => VLitStr d [] | _ => VIdent (txt "__" ++ d) end).
Proof.
  unfold hash_meaning, identifier, hashed_text. rewrite ?HO. fold (sip_hash seed). intros H.
  destruct v; cbv zeta; rewrite ?HO in H; try (injection H as <-; reflexivity);
    match type of H with (if ?c then _ else _) = _ => destruct c end; try discriminate; injection H as <-; reflexivity.
Qed.
End Calls.
Definition is_text (v : value) : bool := match v with VLitStr _ _ => true | _ => false end.
Lemma names_same O seed seed' u v a b : (forall seed x, hash64 O seed x = sip_hash seed x) ->
  hash_meaning O seed u = Ok a -> hash_meaning O seed' v = Ok b -> is_text u = is_text v ->
  (a = b <-> sip13 (hashed_bytes seed (hashed_text O u)) = sip13 (hashed_bytes seed' (hashed_text O v))).
Proof.
  intros HO Ha Hb Hk. apply (hash_name O HO) in Ha, Hb. revert Ha Hb.
  generalize (sip13 (hashed_bytes seed (hashed_text O u))), (sip13 (hashed_bytes seed' (hashed_text O v))). intros m n Ha Hb. cbv zeta in Ha, Hb.
  split; [|intros E; rewrite E in Ha; rewrite Ha, Hb; destruct u, v; try discriminate Hk; reflexivity].
  intros E. rewrite E, Hb in Ha. apply decimal_inj. revert Ha. generalize (decimal m), (decimal n). intros x y Ha.
  destruct u, v; try discriminate Hk; injection Ha; auto.
Qed.
From Verif Require Import RustInstance.
Lemma rust_hash seed x : hash64 rust seed x = sip_hash seed x.
Proof. cbn [hash64 rust]. reflexivity. Qed.
Lemma rust_names seed seed' u v a b : hash_meaning rust seed u = Ok a -> hash_meaning rust seed' v = Ok b ->
  match u, v with VLitStr _ _, VLitStr _ _ => True | VLitStr _ _, _ | _, VLitStr _ _ => False | _, _ => True end ->
  let text v := match v with VLitStr x _ | VIdent x => x | _ => text_of rust v end in
  (a = b <-> sip13 (hashed_bytes seed (text u)) = sip13 (hashed_bytes seed' (text v))).
Proof.
  intros Ha Hb Hk text.
  assert (Ht : forall w, text w = hashed_text rust w) by (intros w; destruct w; reflexivity). clearbody text. rewrite (Ht u), (Ht v).
  apply (names_same rust seed seed' u v a b rust_hash Ha Hb). destruct u, v; try reflexivity; contradiction.
Qed.
Lemma rust_range seed x : (hash64 rust seed x < 2 ^ 64)%N.
Proof. rewrite rust_hash. unfold sip_hash. apply sip13_below. Qed.
