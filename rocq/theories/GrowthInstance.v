(** The ASCII instance is modest. *)
From Coq Require Import String.
From Verif Require Import Base Token Types Values Concrete SpecGrowth GrowthProofs.
Open Scope list_scope.

Definition gap (t : tt) : str := match t with TPunct _ true => [] | _ => [32%N] end.
Lemma gap_short t : (long (gap t) <= 1)%N.
Proof. destruct t as [|? []| |]; cbn; lia. Qed.
Lemma print_short t : (long (print_tt t) + 1 <= 3 * letters t)%N.
Proof.
  induction t as [x|c j|[v p|d r|r]|d ts IH] using tt_ind'; cbn [print_tt letters].
  - lia.
  - rewrite long_cons, long_nil. lia.
  - rewrite !long_app, !long_cons, !long_nil. lia.
  - lia.
  - lia.
  - set (inner := (fix go (l : list tt) : str := match l with [] => [] | [x] => print_tt x | x :: r => print_tt x ++ (match x with TPunct _ true => [] | _ => [32%N] end) ++ go r end)).
    assert (H : (long (inner ts) <= 3 * sum (map letters ts))%N).
    { clear d. induction IH as [|t ts Ht _ IHts]; [cbn; lia|]. cbn [map]. rewrite sum_cons. destruct ts as [|u ts]; cbn [map] in IHts |- *.
      - change (inner [t]) with (print_tt t). lia.
      - change (inner (t :: u :: ts)) with (print_tt t ++ gap t ++ inner (u :: ts)).
        rewrite !long_app. pose proof (gap_short t) as Hgap.
        lia. }
    destruct d; rewrite ?long_app, ?long_cons, ?long_nil; lia.
Qed.
Lemma print_modest ts : (long (print ts) <= 3 * bulk ts)%N.
Proof.
  unfold print, bulk. induction ts as [|t ts IHts]; [cbn; lia|]. cbn [map]. rewrite sum_cons. pose proof (print_short t) as Ht.
  destruct ts as [|u ts]; cbn [map] in IHts |- *; [change (print_tt (TGroup NoDelim [t])) with (print_tt t); lia|].
  change (print_tt (TGroup NoDelim (t :: u :: ts))) with (print_tt t ++ gap t ++ print_tt (TGroup NoDelim (u :: ts))).
  rewrite !long_app. pose proof (gap_short t) as Hgap. lia.
Qed.
Lemma snake_short x : forall b, (long (snake b x) <= 2 * long x)%N.
Proof.
  induction x as [|c x IH]; intros b; cbn [snake]; [cbn; lia|]. destruct (is_upper c); rewrite ?long_app, !long_cons.
  - specialize (IH false). change (long (@nil chr)) with 0%N. destruct b; rewrite ?long_cons, ?long_nil; lia.
  - specialize (IH (is_lower c || is_digit c)). lia.
Qed.
Lemma pascal_short x : forall b, (long (pascal b x) <= long x)%N.
Proof.
  induction x as [|c x IH]; intros b; cbn [pascal]; [cbn; lia|]. destruct (N.eqb c 95); rewrite !long_cons; [specialize (IH true)|specialize (IH false)]; lia.
Qed.
Lemma camel_short x : (long (camel x) <= long x)%N.
Proof. unfold camel. pose proof (pascal_short x true) as H. destruct (pascal true x); [cbn; lia|]. rewrite long_cons in *. lia. Qed.
Lemma map_long {A B} (f : A -> B) l : long (map f l) = long l.
Proof. unfold long. rewrite map_length. reflexivity. Qed.
Lemma path_short fuel : forall ts l r, simple_path fuel ts = Some (l, r) -> (sum (map (fun x => 2 + long x) l) + bulk r <= 3 * bulk ts)%N.
Proof.
  induction fuel as [|fuel IH]; intros ts l r H; cbn [simple_path] in H; [discriminate|].
  destruct ts as [|[x| | |] [|c1 [|c2 ts]]]; try discriminate H; destruct (is_kw x); try discriminate H.
  - injection H as <- <-. rewrite bulk_cons. cbn [map letters]. rewrite sum_cons. unfold sum. cbn [fold_right]. unfold bulk, sum. cbn [map fold_right]. lia.
  - injection H as <- <-. rewrite !bulk_cons. cbn [map letters]. rewrite sum_cons. unfold sum. cbn [fold_right]. lia.
  - destruct (is_p 58 c1 && is_p 58 c2).
    + destruct (simple_path fuel ts) as [[l' r']|] eqn:E; [|discriminate]. injection H as <- <-. apply IH in E.
      rewrite !bulk_cons. cbn [map letters]. rewrite sum_cons. lia.
    + injection H as <- <-. rewrite !bulk_cons. cbn [map letters]. rewrite sum_cons. unfold sum. cbn [fold_right]. lia.
Qed.

Lemma ascii_modest : modest 3 ascii.
Proof.
  constructor; cbn [ascii to_string upper lower to_snake_case to_camel_case to_pascal_case parse_ident parse_path parse_type parse_expr
    parse_lit_str parse_lit_int parse_str_ident lit_int_new hash64 path_segments].
  - lia.
  - exact print_modest.
  - intros x. rewrite map_long. lia.
  - intros x. rewrite map_long. lia.
  - intros x. pose proof (snake_short x false). lia.
  - intros x. pose proof (camel_short x). lia.
  - intros x. pose proof (pascal_short x true). lia.
  - intros [|[y| | |] [|]] x; try discriminate. destruct (is_kw y); [discriminate|]. intros H; injection H as <-.
    rewrite bulk_cons. cbn [letters]. lia.
  - intros ts r. destruct (simple_path _ ts) as [[l [|]]|]; try discriminate. intros H; injection H as <-. lia.
  - intros ts r. destruct (simple_type _ ts) as [[|]|]; try discriminate. intros H; injection H as <-. lia.
  - intros ts r. destruct (simple_expr _ ts); [|discriminate]. intros H; injection H as <-. lia.
  - intros [|[| |[v0 p0| |]|] [|]] v p; try discriminate. intros H; injection H as <- <-. rewrite bulk_cons. cbn [letters]. lia.
  - intros ts d r H. destruct ts as [|[x|c j|[v p|d0 r0|o]|dl l] [|t2 ts]]; try discriminate H.
    + destruct t2 as [x|c2 j2|[v p|d0 r0|o]|dl l]; try discriminate H. destruct ts; [|discriminate H]. destruct (N.eqb c 45); [|discriminate H].
      injection H as <- <-. rewrite !bulk_cons, !long_cons. cbn [letters]. lia.
    + injection H as <- <-. rewrite bulk_cons. cbn [letters]. lia.
  - intros x y. destruct (ident_text x && negb (is_kw x)); [|discriminate]. intros H; injection H as <-. lia.
  - intros [|c x] d r; [discriminate|]. destruct (forallb is_digit (c :: x)); [|discriminate]. intros H; injection H as <- <-. lia.
  - intros seed x. unfold toy_hash. change (2 ^ 64)%N with 18446744073709551616%N. generalize dependent seed.
    intros seed. assert (Hm : forall a, (a mod 18446744073709551616 < 18446744073709551616)%N) by (intros a; apply N.mod_lt; discriminate).
    assert (G : forall l h, (h < 18446744073709551616)%N -> (fold_left (fun h c => (h * 31 + c) mod 18446744073709551616)%N l h < 18446744073709551616)%N)
      by (induction l as [|c l IH]; intros h Hh; cbn [fold_left]; [exact Hh|apply IH, Hm]).
    apply G, Hm.
  - intros ts. destruct (simple_path _ ts) as [[l r]|] eqn:E; [apply path_short in E; lia|cbn; lia].
Qed.
