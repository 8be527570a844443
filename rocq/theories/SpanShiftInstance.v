(** The parsers made from parsers without spans (SpanDress.v) are moved by everything that
    leaves [call_site] alone. *)
From Coq Require Import String.
From Verif Require Import Base Token Types Values Item Deprecation Interpreter Parse ConcreteEq
  SpanTokens SpanWalker SpanValues SpanEval SpanItem SpanVisitor SpanDeprecation SpanInstance SpanParse SpanMacro SpanDress
  SpecSpanShift SpanShiftEval SpanShiftParse SpanShiftItem SpanShiftMacro.
Open Scope list_scope.

Section Shift.
Context (g : span -> span) (C : g call_site = call_site).
Notation shift := (shift g).
Notation shift1 := (shift1 g).

(** A part and the tokens after it, moved. *)
Definition on {A B} (f : A -> B) (x : A * list stt) : B * list stt := (f (fst x), shift (snd x)).

Lemma placeless_shift : forall t, shift1 (placeless t) = placeless t.
Proof.
  fix IH 1. intros [x|c j|l|d ts]; cbn; rewrite ?C; try reflexivity. f_equal; [|unfold shift_delims, single; cbn; rewrite C; reflexivity].
  induction ts as [|t ts IHts]; [reflexivity|]. cbn. f_equal; [apply IH|exact IHts].
Qed.
Lemma all_placeless_shift ts : shift (map placeless ts) = map placeless ts.
Proof. unfold SpecSpanShift.shift. rewrite map_map. apply map_ext, placeless_shift. Qed.
Lemma skipn_shift k l : skipn k (shift l) = shift (skipn k l).
Proof. apply skipn_map. Qed.
Lemma dress_tokens_shift ts l : dress_tokens ts (shift l) = on shift (dress_tokens ts l).
Proof.
  unfold dress_tokens, on. cbn [fst snd]. rewrite skipn_shift. f_equal.
  replace (firstn (List.length ts) (shift l)) with (shift (firstn (List.length ts) l)) by (symmetry; apply firstn_map).
  rewrite erase_shift. match goal with |- context [if ?b then _ else _] => destruct b end; [reflexivity|symmetry; apply all_placeless_shift].
Qed.
Lemma next_span_shift l : next_span (shift l) = on g (next_span l).
Proof. destruct l as [|t l]; unfold next_span, on; cbn; [rewrite C|rewrite span_of_shift]; reflexivity. Qed.
Lemma flag_span_shift b l : flag_span b (shift l) = on (option_map g) (flag_span b l).
Proof. destruct b; [|reflexivity]. unfold flag_span. rewrite next_span_shift. destruct (next_span l); reflexivity. Qed.
Lemma enter_shift l : enter (shift l) = on (fun x => (g (fst x), shift (snd x))) (enter l).
Proof. destruct l as [|[? ?|? ? ?|? ?|d ts s] l]; unfold on; cbn; rewrite ?C; reflexivity. Qed.
Lemma dress_name_shift x l : dress_name x (shift l) = on (shift_name g) (dress_name x l).
Proof. unfold dress_name. rewrite next_span_shift. destruct (next_span l); reflexivity. Qed.

Lemma threaded_shift {A B} (f : A -> list stt -> B * list stt) (h : B -> B) l :
  Forall (fun a => forall ts, f a (shift ts) = on h (f a ts)) l -> forall ts, threaded f l (shift ts) = on (map h) (threaded f l ts).
Proof.
  induction 1 as [|a l H _ IH]; intros ts; [reflexivity|]. cbn [threaded]. rewrite H. destruct (f a ts) as [b ts1]. cbn [on fst snd].
  rewrite IH. destruct (threaded f l ts1); reflexivity.
Qed.
Definition on_spans {B} (h : B -> B) (x : list B * list span) : list B * list span := (map h (fst x), map g (snd x)).
Lemma separated_shift {A B} (f : A -> list stt -> B * list stt) (h : B -> B) l :
  (forall a ts, f a (shift ts) = on h (f a ts)) -> forall ts, separated f l (shift ts) = on_spans h (separated f l ts).
Proof.
  intros H. induction l as [|a l IH]; intros ts; [reflexivity|]. cbn [separated]. rewrite H. destruct (f a ts) as [b ts1]. cbn [on fst snd].
  rewrite next_span_shift. destruct (next_span ts1) as [s ts2]. cbn [on fst snd]. rewrite IH. destruct (separated f l ts2); reflexivity.
Qed.
Lemma dress_attr_shift a l : dress_attr a (shift l) = on (shift_attr g) (dress_attr a l).
Proof.
  unfold dress_attr. rewrite next_span_shift. destruct (next_span l) as [p l1]. cbn [on fst snd].
  rewrite flag_span_shift. destruct (flag_span _ l1) as [i l2]. cbn [on fst snd].
  rewrite enter_shift. destruct (enter l2) as [[b inside] l3]. cbn [on fst snd]. rewrite dress_tokens_shift. reflexivity.
Qed.
Lemma dress_attrs_shift a : forall l inside, dress_attrs a (shift l) (shift inside) = shift_attrs g (dress_attrs a l inside).
Proof.
  induction a as [|x a IH]; intros l inside; [reflexivity|]. cbn [dress_attrs]. destruct (is_inner x); rewrite dress_attr_shift.
  - destruct (dress_attr x inside) as [p i]. cbn [on fst snd]. rewrite IH. reflexivity.
  - destruct (dress_attr x l) as [p i]. cbn [on fst snd]. rewrite IH. reflexivity.
Qed.
Lemma dress_outer_attrs_shift a l : dress_attrs a (shift l) [] = shift_attrs g (dress_attrs a l []).
Proof. apply (dress_attrs_shift a l []). Qed.
Lemma after_outer_shift a l : after_outer a (shift l) = shift (after_outer a l).
Proof. apply skipn_shift. Qed.
Lemma after_inner_shift a l : after_inner a (shift l) = shift (after_inner a l).
Proof. apply skipn_shift. Qed.
Lemma dress_all_attrs_shift a l : dress_all_attrs a (shift l) = on (shift_attrs g) (dress_all_attrs a l).
Proof. apply threaded_shift, all_same, dress_attr_shift. Qed.

Ltac step :=
  match goal with
  | |- context [after_outer ?a (SpecSpanShift.shift g ?l)] => rewrite (after_outer_shift a l)
  | |- context [after_inner ?a (SpecSpanShift.shift g ?l)] => rewrite (after_inner_shift a l)
  | |- context [skipn ?k (SpecSpanShift.shift g ?l)] => rewrite (skipn_shift k l)
  | |- context [dress_tokens ?ts (SpecSpanShift.shift g ?l)] => rewrite (dress_tokens_shift ts l); destruct (dress_tokens ts l) as [? ?]; cbn [on fst snd]
  | |- context [next_span (SpecSpanShift.shift g ?l)] => rewrite (next_span_shift l); destruct (next_span l) as [? ?]; cbn [on fst snd]
  | |- context [flag_span ?b (SpecSpanShift.shift g ?l)] => rewrite (flag_span_shift b l); destruct (flag_span b l) as [? ?]; cbn [on fst snd]
  | |- context [enter (SpecSpanShift.shift g ?l)] => rewrite (enter_shift l); destruct (enter l) as [[? ?] ?]; cbn [on fst snd]
  | |- context [dress_name ?x (SpecSpanShift.shift g ?l)] => rewrite (dress_name_shift x l); destruct (dress_name x l) as [? ?]; cbn [on fst snd]
  | |- context [dress_all_attrs ?a (SpecSpanShift.shift g ?l)] => rewrite (dress_all_attrs_shift a l); destruct (dress_all_attrs a l) as [? ?]; cbn [on fst snd]
  | |- context [dress_attrs ?a (SpecSpanShift.shift g ?l) (SpecSpanShift.shift g ?i)] => rewrite (dress_attrs_shift a l i)
  | |- context [dress_attrs ?a (SpecSpanShift.shift g ?l) []] => rewrite (dress_outer_attrs_shift a l)
  end.

Lemma dress_field_shift f l : dress_field f (shift l) = on (shift_field g) (dress_field f l).
Proof. unfold dress_field. do 2 step. destruct (f_ident f) as [x|]; repeat step; reflexivity. Qed.
Lemma dress_fields_shift f l : dress_fields f (shift l) = on (shift_fields g) (dress_fields f l).
Proof.
  destruct f as [fs t|fs t|]; [| |reflexivity]; cbn [dress_fields]; step; rewrite (separated_shift _ _ _ dress_field_shift);
    destruct (separated _ _ _); reflexivity.
Qed.
Lemma dress_variant_shift v l : dress_variant v (shift l) = on (shift_variant g) (dress_variant v l).
Proof.
  unfold dress_variant. do 2 step. rewrite dress_fields_shift. destruct (dress_fields _ _) as [f l3]. cbn [on fst snd].
  destruct (v_disc v) as [e|]; repeat step; reflexivity.
Qed.
Lemma colon_span_shift s l : colon_span s (shift l) = on g (colon_span s l).
Proof. destruct s; [unfold on; cbn; rewrite C; reflexivity|apply next_span_shift]. Qed.

Lemma dress_shift_all :
  (forall i l, dress_item i (shift l) = on (shift_item g) (dress_item i l)) /\
  (forall s l, dress_stmt s (shift l) = on (shift_stmt g) (dress_stmt s l)).
Proof.
  pose (Pi := fun i => forall l, dress_item i (shift l) = on (shift_item g) (dress_item i l)).
  pose (Ps := fun s => forall l, dress_stmt s (shift l) = on (shift_stmt g) (dress_stmt s l)).
  pose (Pt := fun i => forall l, dress_trait_item i (shift l) = on (shift_trait_item g) (dress_trait_item i l)).
  pose (Pm := fun i => forall l, dress_impl_item i (shift l) = on (shift_impl_item g) (dress_impl_item i l)).
  assert (H : (forall i, Pi i) /\ (forall s, Ps s)); [|exact H].
  assert (A1 : forall a v s b, Forall Ps b -> Pi (IFn a v s b)).
  { intros a v s b Hb l. cbn [dress_item]. repeat step. rewrite (threaded_shift _ _ _ Hb). reflexivity. }
  assert (A2 : forall a v x p f, Pi (IStruct a v x p f)).
  { intros a v x p f l. cbn [dress_item]. repeat step. destruct f as [fs t|fs t|]; repeat step; rewrite dress_fields_shift;
      (match goal with |- context [dress_fields ?f ?l] => destruct (dress_fields f l) as [? ?] end); cbn [on fst snd]; repeat step;
      unfold on; cbn [fst snd shift_item]; rewrite ?C; reflexivity. }
  assert (A3 : forall a v x p l t, Pi (IEnum a v x p l t)).
  { intros a v x p vs t l. cbn [dress_item]. repeat step. rewrite (separated_shift _ _ _ dress_variant_shift). destruct (separated _ _ _); reflexivity. }
  assert (A4 : forall a v x p l t, Pi (IUnion a v x p l t)).
  { intros a v x p vs t l. cbn [dress_item]. repeat step. rewrite (separated_shift _ _ _ dress_field_shift). destruct (separated _ _ _); reflexivity. }
  assert (A5 : forall a v u au x p s t l, Forall Pt l -> Pi (ITrait a v u au x p s t l)).
  { intros a v u au x p s t items Hl l. cbn [dress_item]. repeat step. rewrite colon_span_shift. destruct (colon_span _ _) as [c lc]. cbn [on fst snd].
    rewrite (separated_shift _ _ _ dress_tokens_shift). destruct (separated _ _ _) as [ss sps]. cbn [on_spans fst snd]. repeat step.
    rewrite (threaded_shift _ _ _ Hl). reflexivity. }
  assert (A6 : forall a d u p tr ty l, Forall Pm l -> Pi (IImpl a d u p tr ty l)).
  { intros a d u p tr ty items Hl l. cbn [dress_item]. do 5 step. destruct tr as [[bang path]|]; repeat step; rewrite (threaded_shift _ _ _ Hl); reflexivity. }
  assert (A7 : forall a v u x l, Forall Pi l -> Pi (IMod a v u x (Some l))).
  { intros a v u x items Hl l. cbn [dress_item]. repeat step. rewrite (threaded_shift _ _ _ Hl). reflexivity. }
  assert (A8 : forall a v u x, Pi (IMod a v u x None)).
  { intros a v u x l. cbn [dress_item]. repeat step. reflexivity. }
  assert (A9 : forall a u abi l, Pi (IForeign a u abi l)).
  { intros a u abi items l. cbn [dress_item]. do 3 step. destruct abi as [[v p]|]; repeat step;
      rewrite (threaded_shift _ shift _ (all_same _ _ dress_tokens_shift)); reflexivity. }
  assert (A10 : forall ts, Pi (IOther ts)).
  { intros ts l. cbn [dress_item]. step. reflexivity. }
  assert (A11 : forall i, Pi i -> Ps (SItem i)).
  { intros i Hi l. cbn [dress_stmt]. rewrite (Hi l). destruct (dress_item i l). reflexivity. }
  assert (A12 : forall ts, Ps (SOther ts)).
  { intros ts l. cbn [dress_stmt]. step. reflexivity. }
  assert (A13 : forall a s b, Forall Ps b -> Pt (TFn a s (Some b))).
  { intros a s b Hb l. cbn [dress_trait_item]. repeat step. rewrite (threaded_shift _ _ _ Hb). reflexivity. }
  assert (A14 : forall a s, Pt (TFn a s None)).
  { intros a s l. cbn [dress_trait_item]. repeat step. reflexivity. }
  assert (A15 : forall k ts, Pt (TOther k ts)).
  { intros k ts l. cbn [dress_trait_item]. step. reflexivity. }
  assert (A16 : forall a v d s b, Forall Ps b -> Pm (MFn a v d s b)).
  { intros a v d s b Hb l. cbn [dress_impl_item]. repeat step. rewrite (threaded_shift _ _ _ Hb). reflexivity. }
  assert (A17 : forall k ts, Pm (MOther k ts)).
  { intros k ts l. cbn [dress_impl_item]. step. reflexivity. }
  split.
  - exact (item_ind' Pi Ps Pt Pm A1 A2 A3 A4 A5 A6 A7 A8 A9 A10 A11 A12 A13 A14 A15 A16 A17).
  - exact (stmt_ind' Pi Ps Pt Pm A1 A2 A3 A4 A5 A6 A7 A8 A9 A10 A11 A12 A13 A14 A15 A16 A17).
Qed.
Lemma dress_block_shift b l : dress_block b (shift l) = shift_block g (dress_block b l).
Proof. unfold dress_block. rewrite (threaded_shift _ (shift_stmt g)); [reflexivity|]. apply all_same, dress_shift_all. Qed.
Lemma dress_tree_shift : forall t l, dress_tree t (shift l) = on (shift_tree g) (dress_tree t l).
Proof.
  induction t as [t|d c IH|a b c IH] using tree_ind'; intros l; cbn [dress_tree].
  - step. unfold on. cbn [fst snd shift_tree]. do 2 f_equal. destruct l0; [symmetry; apply placeless_shift|reflexivity].
  - step. rewrite (threaded_shift _ _ _ IH). reflexivity.
  - step. rewrite (threaded_shift _ _ _ IH). destruct (threaded _ _ _). reflexivity.
Qed.

(** ** The instances *)
Lemma first_place_shift ts : first_place (shift ts) = g (first_place ts).
Proof. destruct ts as [|t ts]; [symmetry; exact C|apply span_of_shift]. Qed.
Lemma same_tokens_shift parse ts : same_tokens parse (shift ts) = option_map shift (same_tokens parse ts).
Proof.
  unfold same_tokens. rewrite erase_shift. destruct (parse _) as [r|]; [|reflexivity]. cbn [option_map]. f_equal.
  match goal with |- context [if ?b then _ else _] => destruct b end; [reflexivity|symmetry; apply all_placeless_shift].
Qed.
Lemma at_first_shift {A} (parse : list tt -> option A) ts : at_first parse (shift ts) = option_map (fun x => (fst x, g (snd x))) (at_first parse ts).
Proof. unfold at_first. rewrite erase_shift, first_place_shift. destruct (parse _); reflexivity. Qed.
Lemma left_unread_shift ts u : left_unread (shift ts) u = option_map (shift_message g) (left_unread ts u).
Proof. destruct u; [|reflexivity]. unfold left_unread. cbn [option_map]. rewrite <- (message_shift g), <- (place_shift g), C. reflexivity. Qed.
Lemma dress_node_shift parse ts : dress_node parse (shift ts) = option_map (shift_node g shift) (dress_node parse ts).
Proof.
  unfold dress_node. rewrite erase_shift. destruct (parse _) as [[[n k] u]|]; [|reflexivity]. cbn [option_map shift_node].
  rewrite left_unread_shift, dress_tokens_shift. reflexivity.
Qed.
Lemma dress_lit_shift r ts : dress_lit r (shift ts) = option_map (shift_read g) (dress_lit r ts).
Proof. unfold dress_lit. rewrite first_place_shift. destruct r as [[[a b] k]|]; reflexivity. Qed.
Lemma dressed_moves O P Y : moving g (dressed O) (dressed_parsers P) (dressed_syntax Y).
Proof.
  split; [exact C| | |].
  - split; intros; cbn; try apply same_tokens_shift; try apply at_first_shift; try reflexivity; [|apply first_place_shift].
    unfold joined. cbn. destruct (N.eqb a b), (N.eqb (g a) (g b)); reflexivity.
  - split; intros ts; cbn; rewrite ?erase_shift; try apply dress_lit_shift; try apply dress_node_shift.
    + destruct (pre_block P (map erase ts)) as [[[b k] u]|]; [|reflexivity]. cbn [option_map shift_node].
      rewrite left_unread_shift, enter_shift. cbn [on fst snd]. rewrite dress_block_shift. reflexivity.
    + unfold SpecSpanShift.shift_messages. cbn [map]. rewrite <- (error_at_shift g), C. reflexivity.
  - split; [split; intros; cbn; try apply same_tokens_shift; reflexivity|]. intros ts. cbn. rewrite erase_shift.
    rewrite (threaded_shift _ (shift_tree g)); [reflexivity|]. apply all_same, dress_tree_shift.
Qed.

End Shift.

(** ** Numbered text: what is numbered from a later place is moved *)
Lemma numbered_later d : forall t n, n <> 0%N ->
  numbered t (n + d)%N = (shift1 (later d) (fst (numbered t n)), (snd (numbered t n) + d)%N) /\ snd (numbered t n) <> 0%N.
Proof.
  fix IH 1. intros t n Hn. assert (L : forall m, m <> 0%N -> later d m = (m + d)%N).
  { intros m Hm. unfold later. destruct (N.eqb_spec m call_site); [contradiction|reflexivity]. }
  destruct t as [x|c j|l|dl ts]; try (cbn [numbered fst snd shift1]; rewrite L by exact Hn; split; [f_equal; lia|lia]).
  cbn [numbered].
  match goal with |- context [?go ts (N.succ (n + d))] => set (f := go) end.
  assert (H : forall ts n, n <> 0%N -> f ts (n + d)%N = (shift (later d) (fst (f ts n)), (snd (f ts n) + d)%N) /\ snd (f ts n) <> 0%N).
  { clear ts n Hn. induction ts as [|t ts IHts]; intros n Hn; [split; [reflexivity|exact Hn]|].
    change (f (t :: ts) (n + d)%N) with (let (t', n1) := numbered t (n + d)%N in let (r', n2) := f ts n1 in (t' :: r', n2)).
    change (f (t :: ts) n) with (let (t', n1) := numbered t n in let (r', n2) := f ts n1 in (t' :: r', n2)).
    destruct (IH t n Hn) as [E Hm]. rewrite E. destruct (numbered t n) as [t' n1]. cbn [fst snd] in *.
    destruct (IHts n1 Hm) as [E2 Hm2]. rewrite E2. destruct (f ts n1) as [r' n2]. cbn [fst snd] in *. split; [reflexivity|exact Hm2]. }
  replace (N.succ (n + d)) with (N.succ n + d)%N by lia. destruct (H ts (N.succ n)) as [E Hm]; [lia|]. rewrite E.
  destruct (f ts (N.succ n)) as [l m]. cbn [fst snd shift1 shift_delims ds_open ds_close ds_entire] in *. split; [|lia].
  unfold shift, shift_delims. cbn [ds_open ds_close ds_entire]. rewrite !L by lia.
  replace (N.succ (m + d)) with (N.succ m + d)%N by lia. f_equal; lia.
Qed.
Lemma numbered_all_later d ts : forall n, n <> 0%N -> numbered_all ts (n + d)%N = shift (later d) (numbered_all ts n).
Proof.
  induction ts as [|t ts IH]; intros n Hn; [reflexivity|]. cbn [numbered_all]. destruct (numbered_later d t n Hn) as [E Hm]. rewrite E.
  destruct (numbered t n) as [t' m]. cbn [fst snd] in *. rewrite IH by exact Hm. reflexivity.
Qed.

(** ** The macros on text numbered from a later place *)
Section Later.
Context (O : oracles) (P : parsers) (Y : syntax) (seed first_id next_id : N).
Let outcome (s : ssource) : list soutput :=
  sexpand_uses O (dressed O) P (dressed_parsers P) (dressed_syntax Y)
    [{| su_source := s; su_seed := seed; su_first_id := first_id; su_next_id := next_id |}].
Lemma outcome_later d s : outcome (shift_source (later d) s) = map (shift_output (later d)) (outcome s).
Proof.
  exact (use_shift O (dressed O) P (dressed_parsers P) (dressed_syntax Y) (later d)
    {| su_source := s; su_seed := seed; su_first_id := first_id; su_next_id := next_id |} (dressed_moves (later d) eq_refl O P Y)).
Qed.
Lemma compose_later d n ts : n <> 0%N -> outcome (SCompose (numbered_all ts (n + d))) = map (shift_output (later d)) (outcome (SCompose (numbered_all ts n))).
Proof. intros H. rewrite <- outcome_later. cbn [shift_source]. rewrite numbered_all_later by exact H. reflexivity. Qed.
Lemma compose_item_later d n m attr item : n <> 0%N -> m <> 0%N ->
  outcome (SComposeItem (numbered_all attr (n + d)) (numbered_all item (m + d))) =
  map (shift_output (later d)) (outcome (SComposeItem (numbered_all attr n) (numbered_all item m))).
Proof. intros H1 H2. rewrite <- outcome_later. cbn [shift_source]. rewrite !numbered_all_later by assumption. reflexivity. Qed.
End Later.
