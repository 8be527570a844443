(** Deprecation attributes with spans: erasing, and where spans come from. *)
From Coq Require Import String.
From Verif Require Import Base Token Types Values Item Deprecation Failures SpanTokens SpanWalker SpanValues SpanEval SpanItem SpanVisitor SpecSpanItem SpanItemProofs SpanDeprecation.
Open Scope list_scope.

Lemma erase_ptree t : map erase (ptree_tokens t) = tree_tokens (erase_tree t).
Proof.
  induction t as [t|d s l IH|a b l IH] using ptree_ind'; cbn [ptree_tokens tree_tokens erase_tree map sgroup erase]; [reflexivity| |].
  - rewrite (erase_flat_map _ _ _ _ IH). reflexivity.
  - rewrite map_app, erase_pattrs, (erase_flat_map _ _ _ _ IH). reflexivity.
Qed.
Lemma erase_pforest f : map erase (pforest_tokens f) = forest_tokens (map erase_tree f).
Proof. apply erase_flat_map, Forall_forall. intros t _. apply erase_ptree. Qed.

Definition erase_snd {A B} (f : A -> B) (p : list warning * A) : list warning * B := (fst p, f (snd p)).
Lemma process_erase prefix ws a b :
  erase_snd erase_attrs (sprocess_deprecations prefix ws a b) = process_deprecations prefix ws (erase_attrs a) b.
Proof.
  unfold sprocess_deprecations, process_deprecations. destruct (pop ws) as [[w ws']|]; [|reflexivity].
  replace (existsb (fun a => names_deprecated (meta a)) (erase_attrs a)) with (existsb (fun a => names_deprecated (map erase (pa_meta a))) a).
  - destruct (_ || _); [reflexivity|]. unfold erase_snd, erase_attrs. cbn [fst snd]. rewrite map_app. reflexivity.
  - induction a as [|x a IH]; [reflexivity|]. cbn. congruence.
Qed.
Lemma each_erase {A B} (f : A -> B) (v : list warning -> A -> list warning * A) (w : list warning -> B -> list warning * B) l :
  Forall (fun x => forall ws, erase_snd f (v ws x) = w ws (f x)) l ->
  forall ws, erase_snd (map f) (visit_each v ws l) = visit_each w ws (map f l).
Proof.
  induction 1 as [|x l H _ IH]; intros ws; [reflexivity|]. cbn [visit_each map]. specialize (H ws). destruct (v ws x) as [ws1 x'].
  rewrite <- H. cbn [erase_snd fst snd]. specialize (IH ws1). destruct (visit_each v ws1 l) as [ws2 l']. rewrite <- IH. reflexivity.
Qed.
Lemma tree_erase prefix t : forall ws, erase_snd erase_tree (svisit_tree prefix ws t) = visit_tree prefix ws (erase_tree t).
Proof.
  induction t as [t|d s l IH|a b l IH] using ptree_ind'; intros ws; cbn [svisit_tree visit_tree erase_tree]; [reflexivity| |].
  - rewrite <- (each_erase _ _ _ _ IH). destruct (visit_each _ ws l). reflexivity.
  - rewrite <- process_erase. destruct (sprocess_deprecations prefix ws a b) as [ws1 a']. cbn [erase_snd fst snd].
    rewrite <- (each_erase _ _ _ _ IH). destruct (visit_each _ ws1 l). reflexivity.
Qed.
Lemma emit_erase s f : map erase_tree (semit s f) = emit s (map erase_tree f).
Proof.
  unfold semit, emit. destruct (warnings s) as [|w ws]; [reflexivity|].
  rewrite <- (each_erase erase_tree (svisit_tree (s_prefix s))) by (apply Forall_forall; intros; apply tree_erase). reflexivity.
Qed.
Lemma scope_emit_erase t f : map erase_tree (sscope_emit t f) = scope_emit t (map erase_tree f).
Proof. destruct t; [apply emit_erase|reflexivity]. Qed.

(** The attributes added are at [call_site]. *)
Section In.
Context (U : span -> Prop).
Hypothesis H0 : U call_site.
Lemma to_attribute_in w : attr_in U (sto_attribute w).
Proof. unfold attr_in, stream_in. cbn. repeat split; try assumption. repeat constructor; assumption. Qed.
Lemma process_in prefix ws a b : stream_in U (pattrs_tokens a) -> stream_in U (pattrs_tokens (snd (sprocess_deprecations prefix ws a b))).
Proof.
  intros H. unfold sprocess_deprecations. destruct (pop ws) as [[w ws']|]; [|exact H]. destruct (_ || _); [exact H|]. cbn [snd].
  unfold pattrs_tokens. rewrite flat_map_app. apply stream_app. split; [exact H|]. apply attrs_tokens_in. constructor; [apply to_attribute_in|constructor].
Qed.
Lemma each_in (v : list warning -> ptree -> list warning * ptree) l :
  Forall (fun x => forall ws, stream_in U (ptree_tokens x) -> stream_in U (ptree_tokens (snd (v ws x)))) l ->
  forall ws, stream_in U (flat_map ptree_tokens l) -> stream_in U (flat_map ptree_tokens (snd (visit_each v ws l))).
Proof.
  induction 1 as [|x l H _ IH]; intros ws; [auto|]. cbn [visit_each flat_map]. rewrite stream_app. intros [H1 H2].
  specialize (H ws H1). destruct (v ws x) as [ws1 x']. specialize (IH ws1 H2). destruct (visit_each v ws1 l) as [ws2 l'].
  cbn [snd flat_map] in *. apply stream_app. auto.
Qed.
Lemma tree_in prefix t : forall ws, stream_in U (ptree_tokens t) -> stream_in U (ptree_tokens (snd (svisit_tree prefix ws t))).
Proof.
  induction t as [t|d s l IH|a b l IH] using ptree_ind'; intros ws; cbn [svisit_tree ptree_tokens]; [auto| |].
  - rewrite stream_sgroup. intros [Hs Hl]. pose proof (each_in _ _ IH ws Hl) as H. destruct (visit_each _ ws l). cbn [snd ptree_tokens] in *.
    apply stream_sgroup. auto.
  - rewrite stream_app. intros [Ha Hl]. pose proof (process_in prefix ws a b Ha) as H'. destruct (sprocess_deprecations prefix ws a b) as [ws1 a'].
    pose proof (each_in _ _ IH ws1 Hl) as H. destruct (visit_each _ ws1 l). cbn [snd ptree_tokens] in *. apply stream_app. auto.
Qed.
Lemma scope_emit_in t f : stream_in U (pforest_tokens f) -> stream_in U (pforest_tokens (sscope_emit t f)).
Proof.
  destruct t as [s|]; [|auto]. unfold sscope_emit, semit. destruct (warnings s); [auto|]. apply each_in.
  apply Forall_forall. intros x _. apply tree_in.
Qed.
End In.
