(** Spans and invisible groups: whole inputs, messages in short, the instance. *)
From Coq Require Import String Lia.
From Verif Require Import Base Token Types Values Ast Item Interpreter Parse InvisibleParse SpecParse SpecInvisible InvisibleProofs InvisibleSame InvisibleInstance InvisibleTop
  SpanTokens SpanValues SpanEval SpanItem SpanParse SpanParseProofs SpanDress SpanInvisible SpanInvisibleProofs SpecSpanInvisible SpanInvisibleInstance SpanInvisibleSame.
Open Scope list_scope.
Local Notation place := SpanParse.place.

Lemma spart_part ts s : spart_of ts s -> part_of (map erase ts) (map erase s).
Proof.
  intros H. induction H as [|t r _ IH|xs s r _ IH|d xs s r _ IH|a b _ IH].
  - apply part_all.
  - exact (part_next _ _ _ IH).
  - rewrite map_app. exact (part_enter _ _ _ IH).
  - exact (part_group _ _ _ _ IH).
  - rewrite map_app in IH. exact (part_front _ _ _ IH).
Qed.
Lemma spart_fine ts s : sfine ts -> spart_of ts s -> sfine s.
Proof. intros H Hp. exact (part_fine _ _ H (spart_part _ _ Hp)). Qed.

Theorem sfunc_through : forall P SP hf n ts, all_fine (map erase ts) = true -> (forall s, spart_of ts s -> stransparent_at SP s) ->
  same_sparse (spart_of ts) SP (through_func_macro P SP hf n ts) (sparse_func_macro P SP hf n (sflats ts)).
Proof.
  intros P SP hf n ts Hf Ht. apply (func_same P SP hf (spart_of ts)); try (intros; apply sagree_through; apply Ht; assumption).
  - intros s. apply spart_fine, Hf.
  - apply spart_next.
  - apply spart_enter.
  - apply spart_group.
  - apply spart_front.
  - apply spart_all.
Qed.
Theorem sattr_through : forall P SP hf n attr item, all_fine (map erase attr) = true -> all_fine (map erase item) = true ->
  (forall s, spart_of attr s \/ spart_of [sgroup Brace call_site item] s -> stransparent_at SP s) ->
  same_sparse (fun s => spart_of attr s \/ spart_of [sgroup Brace call_site item] s) SP
    (through_attr_macro P SP hf n attr item) (sparse_attr_macro P SP hf n (sflats attr) (sflats item)).
Proof.
  intros P SP hf n attr item Hf Hi Ht.
  assert (Hi' : sfine [sgroup Brace call_site item]) by (unfold sfine, all_fine in *; cbn [map erase sgroup forallb fine]; rewrite Hi; reflexivity).
  apply (attr_same P SP hf (fun s => spart_of attr s \/ spart_of [sgroup Brace call_site item] s)); try (intros; apply sagree_through; apply Ht; assumption).
  - intros s [H|H]; [exact (spart_fine _ _ Hf H)|exact (spart_fine _ _ Hi' H)].
  - intros t r [H|H]; [left|right]; exact (spart_next _ _ _ H).
  - intros xs s r [H|H]; [left|right]; exact (spart_enter _ _ _ _ H).
  - intros d xs s r [H|H]; [left|right]; exact (spart_group _ _ _ _ _ H).
  - intros a b [H|H]; [left|right]; exact (spart_front _ _ _ H).
  - left. apply spart_all.
  - right. apply spart_all.
  - intros b k u b' k' u' E E'. pose proof (sthrough_block _ _ (Ht _ (or_intror (spart_all _)))) as T. unfold sreads_through in T.
    change (sflats [sgroup Brace call_site item]) with [sgroup Brace call_site (sflats item)] in T. rewrite E, E' in T. destruct T as (_ & _ & _ & L & ->).
    cbn [map erase sgroup] in *. cbn in L. destruct k as [|[|k]]; cbn; lia.
Qed.

(** ** Messages in short *)
Lemma place_moved (at_ : list stt -> Prop) scope l x : at_ l -> sfine l ->
  moved at_ (new_message (place scope l) x) (new_message (place scope (sflats l)) x).
Proof.
  intros H F. destruct l as [|t r]; [left; reflexivity|]. destruct t as [y s|c j s|y s|d xs s]; try (left; reflexivity).
  destruct d; try (left; reflexivity). right. exists xs, s, r. split; [exact H|]. split; [reflexivity|]. cbn [m_text new_message].
  pose proof (sfine_nonempty _ _ F) as NE. destruct (sflats (SGroup NoDelim xs s :: r)); [contradiction|]. reflexivity.
Qed.
Lemma in_short (at_ : list stt -> Prop) : (forall l, at_ l -> sfine l) -> forall m m', same_message at_ m m' -> moved at_ m m'.
Proof.
  intros HF m m' H. destruct H as [scope l x Hl Hx|l x Hl NE Hx|scope l x Hl Hx|s].
  - pose proof (HF _ Hl) as F. unfold error_at. destruct l as [|t r]; [left; reflexivity|].
    pose proof (sfine_nonempty _ _ F) as NE. pose proof (place_moved at_ scope (t :: r) x Hl F) as M.
    destruct (sflats (t :: r)) eqn:E; [contradiction|]. exact M.
  - apply place_moved; [exact Hl|exact (HF _ Hl)].
  - unfold instead, expected_punct. pose proof (place_moved at_ scope l (txt "expected `" ++ txt x ++ txt "`") Hl (HF _ Hl)) as M.
    destruct (sflats l) as [|[y s|c j s|y s|d xs s] r]; try exact M. destruct (N.eqb c 39); [exact M|]. left. reflexivity.
  - left. reflexivity.
Qed.
Lemma all_in_short (at_ : list stt -> Prop) e e' : (forall l, at_ l -> sfine l) -> Forall2 (same_message at_) e e' -> Forall2 (moved at_) e e'.
Proof. intros HF H. induction H as [|m m' l l' H _ IH]; constructor; [exact (in_short _ HF _ _ H)|exact IH]. Qed.
Theorem sfunc_messages : forall P SP hf n ts, all_fine (map erase ts) = true -> (forall s, spart_of ts s -> stransparent_at SP s) ->
  forall e, sp_ast (through_func_macro P SP hf n ts) = inr e ->
  exists e', sp_ast (sparse_func_macro P SP hf n (sflats ts)) = inr e' /\
    (Forall2 (moved (spart_of ts)) e e' \/ exists l, spart_of ts l /\ e = block_error SP l /\ e' = block_error SP (sflats l)).
Proof.
  intros P SP hf n ts Hf Ht e He. destruct (sfunc_through P SP hf n ts Hf Ht) as [_ H]. rewrite He in H.
  destruct (sp_ast (sparse_func_macro P SP hf n (sflats ts))) as [a|e']; [contradiction|]. exists e'. split; [reflexivity|].
  destruct H as [H|H]; [left|right; exact H]. apply all_in_short; [|exact H]. intros s. apply spart_fine, Hf.
Qed.
Theorem sattr_messages : forall P SP hf n attr item, all_fine (map erase attr) = true -> all_fine (map erase item) = true ->
  (forall s, spart_of attr s \/ spart_of [sgroup Brace call_site item] s -> stransparent_at SP s) ->
  forall e, sp_ast (through_attr_macro P SP hf n attr item) = inr e ->
  exists e', sp_ast (sparse_attr_macro P SP hf n (sflats attr) (sflats item)) = inr e' /\
    (Forall2 (moved (fun s => spart_of attr s \/ spart_of [sgroup Brace call_site item] s)) e e' \/
     exists l, (spart_of attr l \/ spart_of [sgroup Brace call_site item] l) /\ e = block_error SP l /\ e' = block_error SP (sflats l)).
Proof.
  intros P SP hf n attr item Hf Hi Ht e He. destruct (sattr_through P SP hf n attr item Hf Hi Ht) as [_ H]. rewrite He in H.
  destruct (sp_ast (sparse_attr_macro P SP hf n (sflats attr) (sflats item))) as [a|e']; [contradiction|]. exists e'. split; [reflexivity|].
  destruct H as [H|H]; [left|right; exact H]. apply all_in_short; [|exact H].
  intros s [Hs|Hs]; [exact (spart_fine _ _ Hf Hs)|]. refine (spart_fine _ _ _ Hs). unfold sfine, all_fine in *. cbn [map erase sgroup forallb fine]. rewrite Hi. reflexivity.
Qed.

(** ** The instance *)
Lemma snode_reads {A B} (f : list stt -> option (A * nat * option syn_message)) (what : A -> B) ts :
  (forall s a k u, f s = Some (a, k, u) -> k <= List.length s /\ left_unread_text u) -> sreads_through (snode_through f) what ts.
Proof.
  intros W. unfold sreads_through, snode_through. rewrite sflats_idem. destruct (f (sflats ts)) as [[[a k] u]|] eqn:E; cbn [option_map]; [|exact I].
  destruct (W _ _ _ _ E) as [L U]. assert (L' : k <= List.length (flats (map erase ts))) by (rewrite <- sflats_erase, map_length; exact L).
  unfold entered. rewrite sflats_erase. destruct (reach_taken _ _ L') as [Q1 Q2]. split; [reflexivity|]. split; [reflexivity|]. split; [exact U|]. split; [exact Q2|].
  rewrite (reach_flat _ _ L'), Q1. reflexivity.
Qed.
Lemma slit_reads (f : list stt -> option (str * str * span * nat)) ts :
  (forall s a b p k, f s = Some (a, b, p, k) -> k <= List.length s) -> sreads_through (as_node (slit_through f)) (fun x => x) ts.
Proof.
  intros W. assert (R : forall s, as_node (slit_through f) s = snode_through (as_node f) s).
  { intros s. unfold as_node, slit_through, snode_through. destruct (f (sflats s)) as [[[[a b] p] k]|]; reflexivity. }
  pose proof (snode_reads (as_node f) (fun x => x) ts) as H. unfold sreads_through in *. rewrite !R. apply H.
  intros s a k u E. unfold as_node in E. destruct (f s) as [[[[a0 b] p] k0]|] eqn:E0; [|discriminate]. injection E as <- <- <-.
  split; [exact (W _ _ _ _ _ E0)|]. intros m Hm. discriminate.
Qed.
Theorem sinstance_transparent : forall P, within P -> forall ts, stransparent_at (sreading_through (dressed_parsers P)) ts.
Proof.
  intros P (W1 & W2 & W3 & W4 & W5 & W6) ts.
  assert (U : forall s u, left_unread_text (left_unread s u)) by (intros s [|] m Hm; [injection Hm as <-; reflexivity|discriminate]).
  assert (N : forall f, (forall t x k u, f t = Some (x, k, u) -> k <= List.length t) ->
    forall s a k u, dress_node f s = Some (a, k, u) -> k <= List.length s /\ left_unread_text u).
  { intros f W s a k u E. unfold dress_node in E. destruct (f (map erase s)) as [[[x k0] u0]|] eqn:E0; [|discriminate]. injection E as <- <- <-.
    apply W in E0. rewrite map_length in E0. split; [exact E0|apply U]. }
  split; cbn [spre_lit_int spre_lit_str spre_path spre_type spre_expr spre_block sreading_through dressed_parsers].
  - apply slit_reads. intros s a b p k E. unfold dress_lit in E. destruct (pre_lit_int P (map erase s)) as [[[x y] k0]|] eqn:E0; [|discriminate]. injection E as <- <- <- <-.
    apply W1 in E0. rewrite map_length in E0. exact E0.
  - apply slit_reads. intros s a b p k E. unfold dress_lit in E. destruct (pre_lit_str P (map erase s)) as [[[x y] k0]|] eqn:E0; [|discriminate]. injection E as <- <- <- <-.
    apply W2 in E0. rewrite map_length in E0. exact E0.
  - apply snode_reads, N, W3.
  - apply snode_reads, N, W4.
  - apply snode_reads, N, W5.
  - apply snode_reads. intros s b k u E. destruct (pre_block P (map erase s)) as [[[x k0] u0]|] eqn:E0; [|discriminate]. injection E as <- <- <-.
    apply W6 in E0. rewrite map_length in E0. split; [exact E0|apply U].
Qed.
