(** Parsers with spans that read through invisible groups, made of any parsers with spans for
    input without them; used only in examples. *)
From Coq Require Import String.
From Verif Require Import Base Token Types Values Ast Item Interpreter Parse Macro InvisibleParse SpecInvisible InvisibleInstance RustLexer RustInstance
  SpanTokens SpanValues SpanItem SpanInstance SpanParse SpanExpand SpanMacro SpecSpanEval SpecSpanItem SpecSpanMacro SpanParseProofs SpanPlaces SpanDress SpanDressProofs SpanRust
  SpanInvisible SpanInvisibleMacro SpanInvisibleRun SpecSpanInvisible.
Open Scope list_scope.

Definition entered (k : nat) (ts : list stt) : nat := reach k (flat_map marks (map erase ts)).
Definition slit_through (f : list stt -> option (str * str * span * nat)) (ts : list stt) : option (str * str * span * nat) :=
  option_map (fun '(a, b, s, k) => (a, b, s, entered k ts)) (f (sflats ts)).
Definition snode_through {A} (f : list stt -> option (A * nat * option syn_message)) (ts : list stt) : option (A * nat * option syn_message) :=
  option_map (fun '(a, k, u) => (a, entered k ts, u)) (f (sflats ts)).
(** The error of a block is reported where it is looked for (see SpanInvisible.v). *)
Definition sreading_through (SP : sparsers) : sparsers := {|
  spre_lit_int := slit_through (spre_lit_int SP);
  spre_lit_str := slit_through (spre_lit_str SP);
  spre_path := snode_through (spre_path SP);
  spre_type := snode_through (spre_type SP);
  spre_expr := snode_through (spre_expr SP);
  spre_block := snode_through (spre_block SP);
  block_error := block_error SP;
|}.

Lemma sflat_erase t : map erase (sflat t) = flat (erase t).
Proof.
  induction t as [x s|c j s|l s|d ts s IH] using stt_ind'; try reflexivity.
  assert (E : map erase (flat_map sflat ts) = flat_map flat (map erase ts)).
  { induction IH as [|t ts H _ IHl]; [reflexivity|]. cbn [flat_map map]. rewrite map_app, H, IHl. reflexivity. }
  destruct d; cbn [sflat erase flat map]; rewrite ?E; try reflexivity.
Qed.
Lemma sflats_erase ts : map erase (sflats ts) = flats (map erase ts).
Proof. unfold sflats, flats. induction ts as [|t ts IH]; [reflexivity|]. cbn [flat_map map]. rewrite map_app, sflat_erase, IH. reflexivity. Qed.
Lemma sflat_spans t : incl (spans (sflat t)) (spans1 t).
Proof.
  induction t as [x s|c j s|l s|d ts s IH] using stt_ind'; try (intros x0 H; exact H).
  assert (E : incl (spans (flat_map sflat ts)) (flat_map spans1 ts)).
  { induction IH as [|t ts H _ IHl]; [intros x H; exact H|]. cbn [flat_map]. unfold spans in *. rewrite flat_map_app. apply incl_app; [apply incl_appl, H|apply incl_appr, IHl]. }
  destruct d; cbn [sflat spans1]; unfold spans in *; cbn [flat_map spans1]; rewrite ?app_nil_r;
    try (intros x [<-|[<-|[<-|H]]]; [left; reflexivity|right; left; reflexivity|right; right; left; reflexivity|right; right; right; apply E, H]).
  intros x H. right. right. right. apply E, H.
Qed.
Lemma sflats_spans ts : incl (spans (sflats ts)) (spans ts).
Proof.
  induction ts as [|t ts IH]; [intros x H; exact H|]. unfold spans, sflats in *. cbn [flat_map]. rewrite flat_map_app.
  apply incl_app; [apply incl_appl, sflat_spans|apply incl_appr, IH].
Qed.
Lemma through_spanless P SP : spanless_parsers P SP -> spanless_parsers (reading_through P) (sreading_through SP).
Proof.
  intros [H1 H2 H3 H4 H5 H6].
  split; intros ts; cbn; unfold slit_through, snode_through, through, through_unread, entered; rewrite <- sflats_erase, <- ?H1, <- ?H2, <- ?H3, <- ?H4, <- ?H5, <- ?H6;
    match goal with |- context [option_map _ (option_map _ (?f ?x ?y))] => destruct (f x y) as [[[[? ?] ?] ?]|] || destruct (f x y) as [[[? ?] ?]|] end; reflexivity.
Qed.
Lemma through_inherited SO SP : inherited_parsers SO SP -> inherited_parsers SO (sreading_through SP).
Proof.
  intros [H1 H2 H3 H4 H5 H6 H7].
  assert (S : forall (U : span -> Prop) ts, SpecSpanItem.stream_in U ts -> SpecSpanItem.stream_in U (sflats ts)).
  { intros U ts H. unfold SpecSpanItem.stream_in in *. rewrite Forall_forall in *. intros s Hs. apply H, sflats_spans, Hs. }
  assert (N : forall A (Q : (span -> Prop) -> A -> Prop) f, (forall ts x, f ts = Some x -> SpecSpanMacro.node_in SO ts Q x) ->
    forall ts x, snode_through f ts = Some x -> SpecSpanMacro.node_in SO ts Q x).
  { intros A Q f Hf ts x Hx U H0 HJ Hts. unfold snode_through in Hx. destruct (f (sflats ts)) as [[[a k] u]|] eqn:E; [|discriminate Hx]. injection Hx as <-.
    exact (Hf _ _ E U H0 HJ (S U ts Hts)). }
  split; try (apply N; assumption); try assumption.
  - intros ts d r s k H U HJ Hts. cbn in H. unfold slit_through in H. destruct (spre_lit_int SP (sflats ts)) as [[[[a b] s'] k']|] eqn:E; [|discriminate H]. injection H as _ _ <- _.
    exact (H1 _ _ _ _ _ E U HJ (S U ts Hts)).
  - intros ts v p s k H. cbn in H. unfold slit_through in H. destruct (spre_lit_str SP (sflats ts)) as [[[[a b] s'] k']|] eqn:E; [|discriminate H]. injection H as _ _ <- _.
    apply sflats_spans. exact (H2 _ _ _ _ _ E).
Qed.

(** The Rust instance; [«] and [»] in comments stand for the invisible delimiters. *)
Definition hidden (ts : list tt) : tt := TGroup NoDelim ts.
Definition h (x : string) : tt := hidden (lex x).
Definition placed_through (s : ssource) : list soutput :=
  sexpand_uses_through rust (dressed rust) (reading_through rust_parsers) (sreading_through (dressed_parsers rust_parsers)) (dressed_syntax rust_syntax)
    [{| su_source := s; su_seed := 1; su_first_id := 100; su_next_id := 1000 |}].
