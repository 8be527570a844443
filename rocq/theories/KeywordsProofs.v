(** Blocks whose keywords may be names of aliases. *)
From Coq Require Import String.
From Verif Require Import Base BaseFacts Token Types Values Ast Env FormatString SubstituteIdents SpecSubst WalkerProofs SubstFacts Item AliasSubstitution SpecItem VisitorProofs
  Deprecation Interpreter Parse Macro SpecElab ElabProofs SpecDeprecation InterpreterProofs SpecMacro MeaningProofs MacroProofs SpecOutcome OutcomeProofs SpecUnrollAll UnrollAllProofs SpecKeywords.
Open Scope list_scope.

Lemma pieces_app f a b : pieces_code f (a ++ b) = pieces_code f a ++ pieces_code f b.
Proof. apply flat_map_app. Qed.
Lemma pieces_replaced f ts r : pieces_code f (Replaced ts :: r) = f ts ++ pieces_code f r.
Proof. reflexivity. Qed.
Lemma pieces_keyword f x r : pieces_code f (Keyword x :: r) = kw x :: pieces_code f r.
Proof. reflexivity. Qed.
Lemma pieces_enclosed f d l r : pieces_code f (Enclosed d l :: r) = TGroup d (pieces_code f l) :: pieces_code f r.
Proof. reflexivity. Qed.
Lemma pieces_nil f : pieces_code f [] = [].
Proof. reflexivity. Qed.
Lemma pieces_if f b x : pieces_code f (keyword_if b x) = kw_if b x.
Proof. destruct b; reflexivity. Qed.
Lemma pieces_flat {A} f (g : A -> list piece) l : pieces_code f (flat_map g l) = flat_map (fun x => pieces_code f (g x)) l.
Proof. induction l as [|x l IH]; [reflexivity|]. cbn [flat_map]. rewrite pieces_app, IH. reflexivity. Qed.
Ltac pieces := rewrite ?pieces_app, ?pieces_if, ?pieces_replaced, ?pieces_keyword, ?pieces_enclosed, ?pieces_replaced, ?pieces_flat, ?pieces_keyword, ?pieces_replaced, ?pieces_enclosed, ?pieces_replaced, ?pieces_flat, ?pieces_nil.

(** ** The pieces are those of the block *)
Lemma item_printed i : pieces_code (fun ts => ts) (item_pieces i) = item_tokens (drop_where i).
Proof.
  assert (C : forall A (pr : A -> list tt) (pc : A -> list piece) (dr : A -> A) l, Forall (fun x => pieces_code (fun ts => ts) (pc x) = pr (dr x)) l ->
     flat_map (fun x => pieces_code (fun ts => ts) (pc x)) l = flat_map pr (map dr l)).
  { intros A pr pc dr l H. induction H as [|x l H _ IH]; [reflexivity|]. cbn [flat_map map]. rewrite H, IH. reflexivity. }
  apply (item_ind' (fun i => pieces_code (fun ts => ts) (item_pieces i) = item_tokens (drop_where i))
    (fun s => pieces_code (fun ts => ts) (stmt_pieces s) = stmt_tokens (drop_where_stmt s))
    (fun s => pieces_code (fun ts => ts) (trait_item_pieces s) = trait_item_tokens (drop_where_trait_item s))
    (fun s => pieces_code (fun ts => ts) (impl_item_pieces s) = impl_item_tokens (drop_where_impl_item s))); clear i.
  - intros a v s b IH. cbn [item_pieces drop_where item_tokens]. pieces. rewrite (C _ _ _ _ _ IH), ?app_nil_r, <- ?app_assoc. reflexivity.
  - intros a v x g f. cbn [item_pieces drop_where item_tokens no_where_generics g_params g_where]. pieces. destruct f; cbn [app]; rewrite ?app_nil_r, <- ?app_assoc; reflexivity.
  - intros a v x g l t. cbn [item_pieces drop_where item_tokens no_where_generics g_params g_where]. pieces. cbn [app]. rewrite ?app_nil_r, <- ?app_assoc. reflexivity.
  - intros a v x g l t. cbn [item_pieces drop_where item_tokens no_where_generics g_params g_where]. pieces. cbn [app]. rewrite ?app_nil_r, <- ?app_assoc. reflexivity.
  - intros a v u au x g s t l IH. cbn [item_pieces drop_where item_tokens no_where_generics g_params g_where]. pieces. rewrite (C _ _ _ _ _ IH). cbn [app]. rewrite ?app_nil_r, <- ?app_assoc. reflexivity.
  - intros a d u g tr ty l IH. cbn [item_pieces drop_where item_tokens no_where_generics g_params g_where]. pieces. rewrite (C _ _ _ _ _ IH). cbn [app]. rewrite ?app_nil_r, <- ?app_assoc.
    destruct tr as [[bang p]|]; pieces; cbn [app]; rewrite ?app_nil_r, <- ?app_assoc; reflexivity.
  - intros a v u x l IH. cbn [item_pieces drop_where item_tokens]. pieces. rewrite (C _ _ _ _ _ IH). cbn [app]. rewrite ?app_nil_r, <- ?app_assoc. reflexivity.
  - intros a v u x. cbn [item_pieces drop_where item_tokens]. pieces. cbn [app]. rewrite ?app_nil_r, <- ?app_assoc. reflexivity.
  - intros a u abi l. cbn [item_pieces drop_where item_tokens]. pieces. cbn [app]. rewrite ?app_nil_r, <- ?app_assoc. reflexivity.
  - intros ts. apply app_nil_r.
  - intros i IH. exact IH.
  - intros ts. apply app_nil_r.
  - intros a s b IH. cbn [trait_item_pieces drop_where_trait_item trait_item_tokens]. pieces. rewrite (C _ _ _ _ _ IH), ?app_nil_r, <- ?app_assoc. reflexivity.
  - intros a s. apply app_nil_r.
  - intros k ts. apply app_nil_r.
  - intros a v d s b IH. cbn [impl_item_pieces drop_where_impl_item impl_item_tokens]. pieces. rewrite (C _ _ _ _ _ IH), ?app_nil_r, <- ?app_assoc. reflexivity.
  - intros k ts. apply app_nil_r.
Qed.
Lemma block_printed l : pieces_code (fun ts => ts) (block_pieces l) = block_tokens (map drop_where_stmt l).
Proof.
  unfold block_pieces, block_tokens. rewrite pieces_flat, flat_map_map. induction l as [|s l IH]; [reflexivity|]. cbn [flat_map]. rewrite IH. f_equal.
  destruct s as [i|ts]; [apply item_printed|apply app_nil_r].
Qed.

(** ** What is emitted *)
Section Emit.
Context (O : oracles) (lookup : str -> option value) (reparse : kind -> list tt -> option (list tt)).
Context (F : faithful O reparse).
Notation sub := (substituted O lookup).
Notation code := (pieces_code sub).
Ltac attrs_step E := let H := fresh in pose proof (attrs_emit_tokens O lookup reparse F _ _ E) as H;
  let H1 := fresh in let H2 := fresh in let H3 := fresh in let H4 := fresh in
  destruct (attrs_emit O lookup reparse F _ _ E) as (_ & H1 & H2 & H3 & H4); rewrite ?H1, ?H2, ?H3, ?H4.
Notation node_emit := (node_emit O lookup reparse F).
Notation name_emit := (name_emit O lookup reparse F).
Notation generics_emit := (generics_emit O lookup reparse F).
Notation fields_emit := (fields_emit O lookup reparse F).
Ltac subs := rewrite ?sub_app, ?sub_group, ?sub_nil.

Lemma children_pieces {A} (visit : A -> res A) (print : A -> list tt) (pc : A -> list piece) l l' :
  Forall (fun x => forall y, visit x = Ok y -> print y = code (pc x)) l ->
  mapM visit l = Ok l' -> flat_map print l' = flat_map (fun x => code (pc x)) l.
Proof.
  intros HF H. apply mapM_ok in H. induction H as [|x y l l' Hx H IH]; [reflexivity|]. inversion HF; subst. cbn [flat_map]. rewrite IH by assumption. f_equal. auto.
Qed.
Lemma item_pieces_emit i : forall i', visit_item O lookup reparse i = Ok i' -> item_tokens i' = code (item_pieces i).
Proof.
  apply (item_ind' (fun i => forall i', visit_item O lookup reparse i = Ok i' -> item_tokens i' = code (item_pieces i))
    (fun s => forall s', visit_stmt O lookup reparse s = Ok s' -> stmt_tokens s' = code (stmt_pieces s))
    (fun s => forall s', visit_trait_item O lookup reparse s = Ok s' -> trait_item_tokens s' = code (trait_item_pieces s))
    (fun s => forall s', visit_impl_item O lookup reparse s = Ok s' -> impl_item_tokens s' = code (impl_item_pieces s))); clear i.
  - intros a v s b IH i' H. cbn [visit_item] in H. run H. injection H as <-. cbn [item_tokens item_pieces]. attrs_step E. pieces. subs.
    rewrite H. apply node_emit in E0 as ->. apply node_emit in E1 as ->. rewrite (children_pieces _ _ _ _ _ IH E2), <- ?app_assoc. reflexivity.
  - intros a v x g f i' H. cbn [visit_item] in H. run H. injection H as <-. cbn [item_tokens item_pieces]. attrs_step E. pieces. subs.
    rewrite H. apply node_emit in E0 as ->. apply name_emit in E1. rewrite <- E1. apply generics_emit in E2 as [-> ->]. cbn [app].
    apply fields_emit in E3 as [E3 Hf]. rewrite <- E3. destruct f as [l t|l t|], r3 as [l' t'|l' t'|]; try contradiction; cbn [app]; rewrite ?app_nil_r, <- ?app_assoc; subs; reflexivity || (cbn; rewrite ?app_nil_r; reflexivity).
  - intros a v x g l t i' H. cbn [visit_item] in H. run H. injection H as <-. cbn [item_tokens item_pieces]. attrs_step E. pieces. subs.
    rewrite H. apply node_emit in E0 as ->. apply name_emit in E1. rewrite <- E1. apply generics_emit in E2 as [-> ->]. cbn [app].
    rewrite (punctuated_emit O lookup variant_tokens "," t l r3); [rewrite ?app_nil_r, <- ?app_assoc; reflexivity|].
    apply mapM_ok in E3. eapply VisitorProofs.Forall2_weaken; [|exact E3]. intros p q. apply (variant_emit O lookup reparse F).
  - intros a v x g l t i' H. cbn [visit_item] in H. run H. injection H as <-. cbn [item_tokens item_pieces]. attrs_step E. pieces. subs.
    rewrite H. apply node_emit in E0 as ->. apply name_emit in E1. rewrite <- E1. apply generics_emit in E2 as [-> ->]. cbn [app].
    rewrite (punctuated_emit O lookup field_tokens "," t l r3); [rewrite ?app_nil_r, <- ?app_assoc; reflexivity|]. apply (mapM_fields O lookup reparse F). exact E3.
  - intros a v u au x g s t l IH i' H. cbn [visit_item] in H. run H. injection H as <-. cbn [item_tokens item_pieces]. attrs_step E. pieces. subs.
    rewrite H. apply node_emit in E0 as ->. apply name_emit in E1. rewrite <- E1. apply generics_emit in E2 as [-> ->]. rewrite (children_pieces _ _ _ _ _ IH E4).
    assert (Hs : (match r3 with [] => [] | _ => sym ":" :: punctuated (fun b => b) (sym "+") t r3 end) =
                 sub (match s with [] => [] | _ => sym ":" :: punctuated (fun b => b) (sym "+") t s end)).
    { apply mapM_ok in E3. assert (E3' : Forall2 (fun x y : list tt => y = sub x) s r3) by (eapply VisitorProofs.Forall2_weaken; [|exact E3]; intros p q; apply node_emit).
      pose proof (punctuated_emit O lookup (fun b => b) "+" t _ _ E3') as Hp. destruct E3'; [reflexivity|]. rewrite sub_sym, <- Hp. reflexivity. }
    rewrite Hs. cbn [app]. rewrite ?app_nil_r, <- ?app_assoc. reflexivity.
  - intros a d u g tr ty l IH i' H. cbn [visit_item] in H. run H. injection H as <-. cbn [item_tokens item_pieces]. attrs_step E. pieces. subs.
    rewrite H. apply generics_emit in E0 as [-> ->]. apply node_emit in E2 as ->. rewrite (children_pieces _ _ _ _ _ IH E3). cbn [app].
    destruct tr as [[bang p]|]; cbn [visit_opt fst snd] in E1; run E1; injection E1 as <-; pieces; subs; cbn [app]; rewrite ?app_nil_r, <- ?app_assoc; [|reflexivity].
    run E0. injection E0 as <-. apply node_emit in E1 as ->. destruct bang; cbn [app]; rewrite ?app_nil_r, <- ?app_assoc; reflexivity.
  - intros a v u x l IH i' H. cbn [visit_item] in H. run H. injection H as <-. run E2. injection E2 as <-. cbn [item_tokens item_pieces]. attrs_step E. pieces. subs.
    rewrite H. apply node_emit in E0 as ->. apply name_emit in E1. rewrite <- E1. rewrite (children_pieces _ _ _ _ _ IH E3). cbn [app]. rewrite ?app_nil_r, <- ?app_assoc. reflexivity.
  - intros a v u x i' H. cbn [visit_item] in H. run H. injection H as <-. cbn [item_tokens item_pieces]. attrs_step E. pieces. subs.
    rewrite H. apply node_emit in E0 as ->. apply name_emit in E1. rewrite <- E1. cbn [app]. rewrite ?app_nil_r, <- ?app_assoc. reflexivity.
  - intros a u abi l i' H. cbn [visit_item] in H. run H. injection H as <-. cbn [item_tokens item_pieces]. attrs_step E. pieces. subs. rewrite sub_concat.
    rewrite H. assert (Hl : r1 = map sub l) by (apply mapM_ok in E1; clear -E1 F; induction E1 as [|x y l l' Hx _ IH]; [reflexivity|]; cbn [map]; apply node_emit in Hx as ->; congruence).
    rewrite Hl. cbn [app]. rewrite ?app_nil_r, <- ?app_assoc.
    destruct abi as [[v0 p0]|]; cbn [visit_opt] in E0; run E0; injection E0 as <-; [|reflexivity]. destruct r2 as [v p]. apply (abi_emit O lookup reparse F) in E2. cbn [fst snd] in E2. rewrite <- E2. reflexivity.
  - intros ts i' H. cbn [visit_item] in H. run H. injection H as <-. apply node_emit in E. cbn [item_tokens item_pieces]. pieces. rewrite E, app_nil_r. reflexivity.
  - intros i IH s' H. cbn [stmt_pieces].
    destruct i; cbn [visit_stmt] in H; run H; injection H as <-; cbn [stmt_tokens]; try (apply IH; reflexivity || assumption).
    cbn [item_pieces]. pieces. rewrite app_nil_r. apply (other_stmt_emit O lookup reparse F). exact E.
  - intros ts s' H. cbn [visit_stmt] in H. run H. injection H as <-. cbn [stmt_pieces stmt_tokens]. pieces. rewrite app_nil_r. apply (other_stmt_emit O lookup reparse F). exact E.
  - intros a s b IH i' H. cbn [visit_trait_item] in H. run H. injection H as <-. run E1. injection E1 as <-. cbn [trait_item_tokens trait_item_pieces]. attrs_step E. pieces. subs.
    rewrite H. apply node_emit in E0 as ->. rewrite (children_pieces _ _ _ _ _ IH E2), <- ?app_assoc. reflexivity.
  - intros a s i' H. cbn [visit_trait_item] in H. run H. injection H as <-. cbn [trait_item_tokens trait_item_pieces]. attrs_step E. pieces. subs.
    rewrite H. apply node_emit in E0 as ->. rewrite app_nil_r. reflexivity.
  - intros k ts i' H. cbn [visit_trait_item] in H. run H. injection H as <-. apply node_emit in E. cbn [trait_item_tokens trait_item_pieces]. pieces. rewrite E, app_nil_r. reflexivity.
  - intros a v d s b IH i' H. cbn [visit_impl_item] in H. run H. injection H as <-. cbn [impl_item_tokens impl_item_pieces]. attrs_step E. pieces. subs.
    rewrite H. apply node_emit in E0 as ->. apply node_emit in E1 as ->. rewrite (children_pieces _ _ _ _ _ IH E2). cbn [app]. rewrite ?app_nil_r, <- ?app_assoc. reflexivity.
  - intros k ts i' H. cbn [visit_impl_item] in H. run H. injection H as <-. apply node_emit in E. cbn [impl_item_tokens impl_item_pieces]. pieces. rewrite E, app_nil_r. reflexivity.
Qed.
Lemma stmt_pieces_emit s s' : visit_stmt O lookup reparse s = Ok s' -> stmt_tokens s' = code (stmt_pieces s).
Proof.
  destruct s as [i|ts]; intros H.
  - pose proof (item_pieces_emit i) as IH. destruct i; cbn [visit_stmt] in H; run H; injection H as <-; cbn [stmt_tokens stmt_pieces]; try (apply IH; assumption).
    cbn [item_pieces item_tokens]. pieces. rewrite app_nil_r. apply (other_stmt_emit O lookup reparse F). exact E.
  - cbn [visit_stmt] in H. run H. injection H as <-. cbn [stmt_pieces stmt_tokens]. pieces. rewrite app_nil_r. apply (other_stmt_emit O lookup reparse F). exact E.
Qed.
Lemma block_pieces_emit l l' : visit_block O lookup reparse l = Ok l' -> block_tokens l' = code (block_pieces l).
Proof.
  intros H. unfold block_tokens, block_pieces. rewrite pieces_flat. apply (children_pieces (visit_stmt O lookup reparse)); [|exact H].
  apply Forall_forall. intros s _. apply stmt_pieces_emit.
Qed.
End Emit.

(** ** Where no keyword of the block is an alias *)
Section PieceInd.
Context (Q : piece -> Prop) (HK : forall x, Q (Keyword x)) (HR : forall ts, Q (Replaced ts)) (HE : forall d l, Forall Q l -> Q (Enclosed d l)).
Fixpoint piece_ind' (p : piece) : Q p :=
  match p with
  | Keyword x => HK x
  | Replaced ts => HR ts
  | Enclosed d l => HE d l ((fix all l : Forall Q l := match l with [] => Forall_nil _ | p :: r => Forall_cons _ (piece_ind' p) (all r) end) l)
  end.
End PieceInd.

Lemma piece_plain O lookup p : (forall x, In x (piece_keywords p) -> lookup x = None) ->
  piece_code (substituted O lookup) p = substituted O lookup (piece_code (fun ts => ts) p).
Proof.
  induction p as [x|ts|d l IH] using piece_ind'; intros H; cbn [piece_code].
  - unfold substituted, replaced_stream. cbn. unfold tokens_of. rewrite (H _ (or_introl eq_refl)). reflexivity.
  - reflexivity.
  - rewrite sub_group. do 2 f_equal. cbn [piece_keywords] in H. induction IH as [|p l Hp _ IH]; [reflexivity|]. cbn [flat_map] in *. rewrite sub_app, Hp, IH; [reflexivity| |].
    + intros x Hx. apply H, in_or_app. right. exact Hx.
    + intros x Hx. apply H, in_or_app. left. exact Hx.
Qed.
Lemma pieces_plain O lookup l : (forall x, In x (flat_map piece_keywords l) -> lookup x = None) ->
  pieces_code (substituted O lookup) l = substituted O lookup (pieces_code (fun ts => ts) l).
Proof.
  induction l as [|p l IH]; intros H; [reflexivity|]. cbn [flat_map] in H. unfold pieces_code in *. cbn [flat_map]. rewrite sub_app, IH, piece_plain; [reflexivity| |].
  - intros x Hx. apply H, in_or_app. left. exact Hx.
  - intros x Hx. apply H, in_or_app. right. exact Hx.
Qed.
Lemma block_plain O lookup l : (forall x, In x (block_keywords l) -> lookup x = None) ->
  pieces_code (substituted O lookup) (block_pieces l) = substituted O lookup (block_tokens (map drop_where_stmt l)).
Proof. intros H. rewrite pieces_plain by exact H. rewrite block_printed. reflexivity. Qed.

Lemma words_are : forall x, In x (map (fun s => s) ["struct"; "enum"; "union"; "trait"; "impl"; "mod"; "extern"; "for"; "unsafe"; "auto"; "default"]%string) -> In (txt x) item_keywords.
Proof. intros x H. apply in_map. rewrite map_id in H. exact H. Qed.
Lemma keywords_flat {A} (g : A -> list piece) (l : list A) : Forall (fun a => incl (flat_map piece_keywords (g a)) item_keywords) l ->
  incl (flat_map piece_keywords (flat_map g l)) item_keywords.
Proof. induction 1 as [|a l H _ IH]; [intros x []|]. cbn [flat_map]. rewrite flat_map_app. apply incl_app; assumption. Qed.
Lemma keyword_if_in b x : In (txt x) item_keywords -> incl (flat_map piece_keywords (keyword_if b x)) item_keywords.
Proof. intros H y Hy. destruct b; [|destruct Hy]. destruct Hy as [<-|[]]. exact H. Qed.
Lemma keyword_in x r : In (txt x) item_keywords -> incl (flat_map piece_keywords r) item_keywords -> incl (flat_map piece_keywords (Keyword x :: r)) item_keywords.
Proof. intros H Hr y [<-|Hy]; auto. Qed.
Lemma replaced_in ts r : incl (flat_map piece_keywords r) item_keywords -> incl (flat_map piece_keywords (Replaced ts :: r)) item_keywords.
Proof. intros H. exact H. Qed.
Lemma enclosed_in d l r : incl (flat_map piece_keywords l) item_keywords -> incl (flat_map piece_keywords r) item_keywords ->
  incl (flat_map piece_keywords (Enclosed d l :: r)) item_keywords.
Proof. intros H Hr. cbn [flat_map piece_keywords]. apply incl_app; assumption. Qed.
Lemma pieces_in a b : incl (flat_map piece_keywords a) item_keywords -> incl (flat_map piece_keywords b) item_keywords -> incl (flat_map piece_keywords (a ++ b)) item_keywords.
Proof. intros H1 H2. rewrite flat_map_app. apply incl_app; assumption. Qed.
Lemma none_in : incl (flat_map piece_keywords []) item_keywords.
Proof. intros x []. Qed.
Ltac word := apply (in_map txt ["struct"; "enum"; "union"; "trait"; "impl"; "mod"; "extern"; "for"; "unsafe"; "auto"; "default"]%string); cbn [In]; tauto.
Ltac inside := repeat first [apply none_in | apply replaced_in | apply keyword_in; [word|] | apply enclosed_in | apply keyword_if_in; word | apply pieces_in | apply keywords_flat; assumption].
Lemma item_words i : incl (flat_map piece_keywords (item_pieces i)) item_keywords.
Proof.
  apply (item_ind' (fun i => incl (flat_map piece_keywords (item_pieces i)) item_keywords)
    (fun i => incl (flat_map piece_keywords (stmt_pieces i)) item_keywords)
    (fun i => incl (flat_map piece_keywords (trait_item_pieces i)) item_keywords)
    (fun i => incl (flat_map piece_keywords (impl_item_pieces i)) item_keywords)); clear i; intros;
    cbn [item_pieces stmt_pieces trait_item_pieces impl_item_pieces]; try assumption; inside.
  all: destruct tr as [[bang p]|]; inside.
Qed.
Lemma block_words l : incl (block_keywords l) item_keywords.
Proof. unfold block_keywords, block_pieces. apply keywords_flat, Forall_forall. intros [i|ts] _; [apply item_words|intros x []]. Qed.

(** ** Uses *)
Section Meaning.
Context (O : oracles) (Y : syntax).

Lemma round_kept seed k prefix inv block items (rw : block_rewrite (list stmt)) :
  faithful O (reparse Y) -> with_items block items rw -> NoDup (item_ids items) ->
  execute_block_rewrite O Y (new_initialized O seed k) (thread_for prefix inv) rw =
  let! c := kept_outcome O (reparse Y) (new_initialized O seed k) block items in Ok (with_warnings Y prefix (raised inv) c).
Proof.
  intros Hf (Hb & Hi) Hn. unfold execute_block_rewrite, kept_outcome. rewrite <- Hi in Hn.
  rewrite make_substitutions_spec by exact Hn. rewrite Hi.
  destruct (bindings O (new_initialized O seed k) items) as [bs|e|p] eqn:Ebs; cbn [bind]; try reflexivity.
  unfold substitute. pose proof (block_ends O (fun x => assoc_str x bs) (reparse Y) Hf (snd rw)) as Hc. rewrite Hb in *.
  pose proof (block_pieces_emit O (fun x => assoc_str x bs) (reparse Y) Hf) as He.
  destruct (first_part_failure _ _ _ _) as [[e|p]|]; cbn [ends_as ends_with] in *.
  - rewrite Hc. reflexivity.
  - rewrite Hc. reflexivity.
  - destruct Hc as (b & Hc). rewrite Hc. cbn [bind]. f_equal. unfold with_warnings. cbn [scope_emit thread_for]. rewrite (He _ _ Hc). reflexivity.
Qed.
Lemma rounds_kept seed k prefix inv block rs rws :
  Forall2 (fun items rw => execute_block_rewrite O Y (new_initialized O seed k) (thread_for prefix inv) rw =
     let! c := kept_outcome O (reparse Y) (new_initialized O seed k) block items in Ok (with_warnings Y prefix (raised inv) c)) rs rws ->
  (let! outs := mapM (execute_block_rewrite O Y (new_initialized O seed k) (thread_for prefix inv)) rws in Ok (concat outs)) =
  let! codes := mapM (kept_outcome O (reparse Y) (new_initialized O seed k) block) rs in Ok (concat (map (with_warnings Y prefix (raised inv)) codes)).
Proof.
  intros H. set (f := execute_block_rewrite _ _ _ _) in *. set (g := kept_outcome _ _ _ _) in *. set (w := with_warnings _ _ _) in *.
  assert (G : mapM f rws = let! codes := mapM g rs in Ok (map w codes)).
  { induction H as [|items rw rs rws Ha HF IH]; [reflexivity|]. cbn [mapM]. rewrite Ha. destruct (g items); cbn [bind]; try reflexivity.
    rewrite IH. destruct (mapM g rs); reflexivity. }
  rewrite G. destruct (mapM g rs); reflexivity.
Qed.

Context (P : parsers).
Lemma execute_kept seed k n s ast prefix : let inv := invocation_of O P seed k n s in
  faithful O (reparse Y) -> p_ast (inv_parsed inv) = Ok (Some ast) ->
  execute O Y (new_initialized O seed k) (thread_for prefix inv) ast =
  kept_meaning O (reparse Y) (new_initialized O seed k) (with_warnings Y prefix (raised inv)) ast.
Proof.
  intros inv Hf Hp. unfold execute, kept_meaning. pose proof (expand_rounds ast) as Hx.
  destruct (all_some (rounds ast)) as [rs|] eqn:Er; [|rewrite Hx; reflexivity].
  destruct Hx as (rws & Hx & HF). rewrite Hx. cbn [bind]. apply rounds_kept.
  apply Forall2_in in HF. eapply Forall2_weaken; [|exact HF]. intros items rw (Hi1 & Hi2 & Hb & Hi).
  destruct (source_rewrite O P _ _ _ _ _ _ _ Hp Hx Hi2) as (Hn & _).
  rewrite Hi in Hn. apply round_kept; auto. split; auto.
Qed.
Lemma use_kept uses i u ast : faithful O (reparse Y) -> nth_error uses i = Some u ->
  p_ast (inv_parsed (invocation_for O P u)) = Ok (Some ast) ->
  nth_error (expand_uses O P Y uses) i = Some
    match kept_meaning O (reparse Y) (new_initialized O (u_seed u) (u_first_id u))
            (with_warnings Y (prefix_of (u_source (hd u uses))) (raised (invocation_for O P u))) ast with
    | Ok ts => Code ts | Err e => CompileError e | Panic p => Panicked p
    end.
Proof.
  intros Hf Hu Hp. rewrite (use_output O P Y uses i u Hu). f_equal. unfold InterpreterProofs.outcome. rewrite Hp.
  pose proof (execute_kept (u_seed u) (u_first_id u) (u_next_id u) (u_source u) ast (prefix_of (u_source (hd u uses))) Hf Hp) as H.
  cbn zeta in H. unfold invocation_for in *. cbn [inv_seed inv_first_id invocation_of] in *. rewrite H. reflexivity.
Qed.

(** Where no alias is a keyword of the block, as in SpecOutcome. *)
Lemma kept_plain env finish ast : (forall x, In x (block_keywords (ast_block ast)) -> ~ In x (ast_aliases ast)) ->
  kept_meaning O (reparse Y) env finish ast = exact_meaning O (reparse Y) env finish ast.
Proof.
  intros Hk. unfold kept_meaning, exact_meaning. destruct (all_some (rounds ast)) as [rs|] eqn:Er; [|reflexivity].
  assert (G : mapM (kept_outcome O (reparse Y) env (ast_block ast)) rs = mapM (round_outcome O (reparse Y) env (ast_block ast)) rs).
  { assert (Hr : forall items, In items rs -> forall x, In x (block_keywords (ast_block ast)) -> ~ In x (map fst items))
      by (intros items Hi x Hx Hx2; apply (Hk x Hx); eapply round_aliases; [exact Er|exact Hi|exact Hx2]). clear Er.
    induction rs as [|items rs IH]; [reflexivity|]. cbn [mapM]. rewrite IH by (intros it Hi; apply Hr; right; exact Hi).
    replace (kept_outcome O (reparse Y) env (ast_block ast) items) with (round_outcome O (reparse Y) env (ast_block ast) items); [reflexivity|].
    unfold kept_outcome, round_outcome. destruct (bindings O env items) as [bs|e|p] eqn:Ebs; cbn [bind]; try reflexivity.
    rewrite block_plain; [reflexivity|]. intros x Hx. apply assoc_none. rewrite (bindings_names _ _ _ _ Ebs). apply Hr; [left; reflexivity|exact Hx]. }
  rewrite G. reflexivity.
Qed.

(** ** The aliases that can be written *)
Definition allowed (x : str) : Prop := ident_allowed P x = true.
Definition good (t : atok) : Prop := forall p, a_pattern t = Some p -> Forall allowed (flat_map tuple_leaves p).
Lemma terminated_all {A} (Q : A -> Prop) (item : N -> list atok -> N * option (A * nat)) :
  (forall n l n1 a k, Forall good l -> item n l = (n1, Some (a, k)) -> Q a) ->
  forall l skip n n' r, Forall good l -> parse_terminated item l skip n = (n', Some r) -> Forall Q r.
Proof.
  intros Hq. induction l as [|t l IH]; intros skip n n' r Hg H; [injection H as _ <-; constructor|].
  pose proof (Forall_inv_tail Hg) as Hl. cbn [parse_terminated] in H. destruct skip as [[|k]|].
  - destruct (is_comma _); [|discriminate]. eapply IH; eassumption.
  - eapply IH; eassumption.
  - destruct (item n (t :: l)) as [n1 [[a k]|]] eqn:E; [|discriminate]. apply Hq in E; [|exact Hg].
    destruct (match k with 0 => _ | S _ => _ end) as [n2 [rest|]] eqn:E2; [|discriminate]. injection H as _ <-. constructor; [exact E|].
    destruct k as [|k]; [destruct (is_comma _); [|discriminate]|]; eapply IH; eassumption.
Qed.
Lemma pattern_value_allowed n l n1 a k : Forall good l -> parse_pattern_value P n l = (n1, Some (a, k)) -> Forall allowed (tuple_leaves a).
Proof.
  intros Hg H. destruct l as [|[t ar tu pa] r]; [discriminate|]. apply Forall_inv in Hg. unfold good in Hg. cbn [a_pattern] in Hg.
  destruct t as [x|c j|l|[| | |] ts]; cbn in H; try discriminate.
  - destruct (ident_allowed P x) eqn:E; [|discriminate]. injection H as _ <- _. constructor; [exact E|constructor].
  - destruct pa as [p|]; [|discriminate]. injection H as _ <- _. exact (Hg _ eq_refl).
Qed.
Context (hf : str -> bool).
Lemma pattern_allowed l p : Forall good l -> parse_pattern P l = Some p -> Forall allowed (flat_map tuple_leaves p).
Proof.
  intros Hg H. unfold parse_pattern in H. destruct (parse_terminated _ l None 0%N) as [n o] eqn:E. cbn [snd] in H. subst o.
  eapply (terminated_all (fun a => Forall allowed (tuple_leaves a))) in E; [|intros *; apply pattern_value_allowed|exact Hg].
  apply Forall_flat_map. exact E.
Qed.
Lemma ann_good t : good (ann P hf t).
Proof.
  induction t as [x|c j|l|d ts IH] using tt_ind'; try (intros p H; discriminate H). destruct d; try (intros p H; discriminate H).
  intros p H. cbn [ann a_pattern] in H. eapply pattern_allowed; [|exact H]. apply Forall_map. exact IH.
Qed.
Lemma anns_good ts : Forall good (map (ann P hf) ts).
Proof. apply Forall_map, Forall_forall. intros t _. apply ann_good. Qed.
Lemma loop_alias_allowed t al : good t -> parse_loop_alias P t = Some al -> Forall allowed (pattern_aliases al).
Proof.
  intros Hg H. unfold parse_loop_alias in H. destruct (a_tok t) as [x|c j|l|[| | |] ts]; try discriminate.
  - destruct (ident_allowed P x) eqn:E; [|discriminate]. injection H as <-. constructor; [exact E|constructor].
  - destruct (a_pattern t) as [p|] eqn:E; [|discriminate]. injection H as <-. apply Hg in E. cbn [pattern_aliases].
    rewrite Forall_forall in *. intros x Hx. apply E, order_leaves, Hx.
Qed.
Lemma loops_allowed : forall len l, List.length l <= len -> forall n n' items rest u, Forall good l -> parse_loops P hf l n = (n', Some (items, rest, u)) ->
  Forall allowed (flat_map (fun l => pattern_aliases (loop_pattern l)) items) /\ Forall good rest.
Proof.
  induction len as [|len IH]; intros [|f r0] Hlen n n' items rest u Hg H; cbn [parse_loops] in H; try (injection H as _ <- <- _; split; constructor).
  - cbn in Hlen. lia.
  - destruct (is_word (txt "for") (a_tok f)); [|injection H as _ <- <- _; split; [constructor|exact Hg]].
    destruct r0 as [|pat [|kw' [|src r]]]; try discriminate. destruct (parse_loop_alias P pat) as [al|] eqn:Ea; [|discriminate].
    destruct (is_word (txt "in") (a_tok kw')); [|discriminate]. destruct (parse_source_list P hf n src) as [n1 [[vals w]|]]; [|discriminate].
    destruct (parse_loops P hf r n1) as [n2 [[[its rest'] w']|]] eqn:Er; [|discriminate]. injection H as _ <- <- _.
    inversion_clear Hg as [|? ? _ Hg1]. inversion_clear Hg1 as [|? ? Hp Hg2]. inversion_clear Hg2 as [|? ? _ Hg3]. inversion_clear Hg3 as [|? ? _ Hg4].
    apply IH in Er; [|cbn in Hlen; lia|exact Hg4]. destruct Er as [E1 E2]. split; [|exact E2]. cbn [flat_map loop_pattern]. apply Forall_app. split; [|exact E1].
    eapply loop_alias_allowed; eassumption.
Qed.
Lemma spec_item_allowed n l n' x e k u : parse_spec_item P hf n l = (n', Some (x, e, k, u)) -> allowed x.
Proof.
  intros H. unfold parse_spec_item in H. destruct l as [|[t ar tu pa] [|eq r]]; try discriminate; destruct t as [y|c j|li|d ts]; try discriminate.
  destruct (ident_allowed P y) eqn:E; [|discriminate]. cbn [andb] in H. destruct (is_equals _); [|discriminate].
  destruct (parse_expr P hf n r) as [m [[e' k'] u']]. destruct (ends _ _); [|discriminate]. injection H as _ <- _ _ _. exact E.
Qed.
Lemma spec_allowed l : forall skip used n n' items used' rest u, parse_spec P hf l skip used n = (n', Some (items, used', rest, u)) -> Forall allowed (map fst items).
Proof.
  induction l as [|t r IH]; intros skip used n n' items used' rest u H; cbn [parse_spec] in H.
  - destruct skip as [[|k]|]; try discriminate; injection H as _ <- _ _ _; constructor.
  - destruct skip as [[|k]|].
    + destruct (is_separator _); [|discriminate]. destruct (match used with Some _ => _ | None => _ end); [discriminate|].
      destruct (peek_ident P r); [eapply IH; exact H|]. injection H as _ <- _ _ _. constructor.
    + eapply IH; exact H.
    + destruct (parse_spec_item P hf n (t :: r)) as [n1 [[[[x e] [|k]] u1]|]] eqn:E; try discriminate.
      destruct (parse_spec P hf r (Some k) used n1) as [n2 [[[[its us] rest'] u2]|]] eqn:E2; [|discriminate]. injection H as _ <- _ _ _.
      constructor; [eapply spec_item_allowed; exact E|eapply IH; exact E2].
Qed.
Lemma header_allowed n ts loops spec l u : parse_header P hf n (map (ann P hf) ts) = Some (loops, spec, l, u) ->
  forall block, Forall allowed (ast_aliases {| ast_loops := loops; ast_spec := spec; ast_block := block : list stmt |}).
Proof.
  intros H block. unfold parse_header in H. destruct (parse_loops P hf (map (ann P hf) ts) n) as [n1 [[[ls l1] u1]|]] eqn:El; [|discriminate].
  eapply loops_allowed in El; [|apply le_n|apply anns_good]. destruct El as [El _].
  assert (G : Forall allowed (match (match ls with [] => None | _ => Some ls end) with Some ls => flat_map (fun l => pattern_aliases (loop_pattern l)) ls | None => [] end))
    by (destruct ls; [constructor|exact El]).
  unfold ast_aliases, own_items. cbn [ast_loops ast_spec]. destruct (peek_ident P l1).
  - destruct (parse_spec P hf l1 None None n1) as [n2 [[[[its us] l2] u2]|]] eqn:E; [|discriminate]. cbn [snd] in H. injection H as <- <- _ _.
    apply Forall_app. split; [exact G|]. apply spec_allowed in E. exact E.
  - injection H as <- <- _ _. apply Forall_app. split; [exact G|constructor].
Qed.
End Meaning.

Lemma aliases_allowed O P u ast : p_ast (inv_parsed (invocation_for O P u)) = Ok (Some ast) -> Forall (fun x => ident_allowed P x = true) (ast_aliases ast).
Proof.
  unfold invocation_for, invocation_of. cbn [inv_parsed]. set (hf := known O). set (n := u_next_id u). clearbody hf n. intros H.
  assert (G : forall ts, p_ast (parse_func_macro P hf n ts) = Ok (Some ast) -> Forall (allowed P) (ast_aliases ast)).
  { intros ts E. unfold parse_func_macro in E. destruct (parse_header P hf n (map (ann P hf) ts)) as [[[[loops spec] l] u1]|] eqn:Eh; [|discriminate].
    pose proof (header_allowed P hf _ _ _ _ _ _ Eh) as G. destruct (pre_block P (toks l)) as [[[block k] u2]|]; [|discriminate].
    destruct (u1 || u2)%bool; cbn [p_ast] in E.
    - destruct (skipn k (toks l)) as [|t r]; [discriminate|]. destruct (is_separator t && negb (trailing_mixed t spec))%bool; [destruct r|]; discriminate.
    - destruct (skipn k (toks l)) as [|t r]; [injection E as <-; apply G|].
      destruct (is_separator t && negb (trailing_mixed t spec))%bool; [destruct r|]; try discriminate. injection E as <-. apply G. }
  destruct (u_source u) as [ts|ts|attr item]; [exact (G _ H)..|]. clear G.
  unfold parse_attr_macro in H. destruct (parse_header P hf n (map (ann P hf) attr)) as [[[[loops spec] l] u1]|] eqn:Eh; [|discriminate].
  pose proof (header_allowed P hf _ _ _ _ _ _ Eh) as G. destruct (skip_separator loops spec (toks l)) as [[|]|]; try discriminate.
  destruct u1; [discriminate|]. destruct (pre_block P [TGroup Brace item]) as [[[block [|[|k]]] []]|]; try discriminate. injection H as <-. apply G.
Qed.

(** The keywords that are reserved are not aliases. *)
Lemma reserved_plain O P Y u ast env finish : reserves P -> p_ast (inv_parsed (invocation_for O P u)) = Ok (Some ast) ->
  (forall x, In x contextual -> In x (block_keywords (ast_block ast)) -> ~ In x (ast_aliases ast)) ->
  kept_meaning O (reparse Y) env finish ast = exact_meaning O (reparse Y) env finish ast.
Proof.
  intros Hr Hp Hc. apply kept_plain. intros x Hx Ha. assert (Hk : In x (reserved ++ contextual)).
  { apply block_words in Hx. apply in_map_iff in Hx as (w & <- & Hw). unfold reserved, contextual. rewrite <- map_app. apply in_map. cbn [In app] in *. tauto. }
  apply in_app_or in Hk as [Hk|Hk]; [|exact (Hc x Hk Hx Ha)].
  apply Hr in Hk. apply aliases_allowed in Hp. rewrite Forall_forall in Hp. rewrite (Hp x Ha) in Hk. discriminate.
Qed.

Lemma kept_words l x : In x (block_keywords l) -> In x (reserved ++ contextual).
Proof.
  intros H. apply block_words in H. apply in_map_iff in H as (w & <- & Hw). unfold reserved, contextual. rewrite <- map_app. apply in_map. cbn [In app] in *. tauto.
Qed.

(** The concrete parsers. *)
From Verif Require Import RustGrammar RustInstance.
Lemma rust_reserves : reserves rust_parsers.
Proof. intros x Hx. cbn [reserved map In] in Hx. repeat (destruct Hx as [<-|Hx]; [vm_compute; reflexivity|]). destruct Hx. Qed.
