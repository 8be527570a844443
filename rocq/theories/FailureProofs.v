(** The texts of the errors. *)
From Coq Require Import String.
From Verif Require Import Base BaseFacts Token Types Values Ast Env Messages Failures SpecElab SpecScope ElabProofs ElabFacts SpanTokens SpanWalker SpanValues SpanEval SpecSpanEval SpanEvalProofs.
Open Scope list_scope.

Lemma kind_prefix f : exists rest, message f = kind_name (class f) ++ txt ": " ++ rest.
Proof.
  destruct f; cbn [message class kind_name]; eexists; reflexivity.
Qed.
Lemma kind_recoverable f g : message f = message g -> kind_name (class f) = kind_name (class g).
Proof. destruct f, g; try reflexivity; intros H; exfalso; vm_compute in H; repeat (injection H as H; try discriminate H); discriminate H. Qed.
Lemma redefined_recoverable x y : message (FRedefined x) = message (FRedefined y) -> x = y.
Proof. cbn [message]. intros H. apply app_inv_head in H. apply app_inv_tail in H. exact H. Qed.
Lemma undefined_recoverable x y : message (FUndefined x) = message (FUndefined y) -> x = y.
Proof. cbn [message]. intros H. apply app_inv_head in H. apply app_inv_tail in H. exact H. Qed.

Lemma report_known O SO seed n : spanless O SO -> inherited SO -> forall items er s,
  NoDup (item_ids (erase_spec items)) ->
  smake_substitutions O SO (new_initialized O seed n) items = SErr er s ->
  exists pre name e post, items = pre ++ (name, e) :: post /\
    forall m, resolve_message O (new_initialized O seed n) (erase_expr e) (class er) = Some m -> message er = m.
Proof.
  intros L I items er s Hnd H. destruct (smake_substitutions_report O SO seed n L I items er s Hnd H) as (pre & name & e & post & -> & Hc).
  exists pre, name, e, post. split; [reflexivity|]. intros m. destruct er; cbn [class resolve_message]; try discriminate; intros E; injection E as <-.
  - reflexivity.
  - destruct Hc as (_ & -> & fs & Hf & ->). cbn [message]. unfold pretty_func_sig. rewrite Hf. cbn [option_map].
    rewrite MessageProofs.pretty_is_join by (intros x Hx; apply in_map_iff in Hx as (g & <- & _); apply MessageProofs.signature_nonempty). reflexivity.
  - reflexivity.
Qed.
