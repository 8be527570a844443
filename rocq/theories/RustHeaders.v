(** The parsers of RustInstance.v on headers with other identifiers. *)
From Coq Require Import String Lia.
From Verif Require Import Base BaseFacts Token Types Values Ast Item Interpreter Parse Macro Concrete ConcreteParse RustGrammar RustInstance
  SpecRename SpecHeaders SpecHeaderNames RenameWalk RustRename RustRenameLaws HeaderProofs HeaderUseProofs.
Open Scope list_scope.

Section Headers.
Context (r : naming) (W : Forall (spared r) grammar_words) (L : forall l, on_literals r l = l).
Notation rename := (rename r).
Let K : forall v p, on_literals r (LStr v p) = LStr v p := fun v p => L (LStr v p).
Lemma J : forall l m, on_literals r l = on_literals r m -> l = m.
Proof. intros l m. rewrite !L. exact (fun E => E). Qed.
Lemma spared_word w : is_grammar_word w = true -> spared r w.
Proof. intros H. apply existsb_exists in H as (w' & Hi & E). apply str_eqb_eq in E. subst w'. exact (proj1 (Forall_forall _ _) W w Hi). Qed.
Lemma follows_nt n : follows r (nt_ n).
Proof. exact (nt_rename r W K J n). Qed.
Lemma node_rename ts o : node (rename ts) (option_map rename o) = renamed_node r (node ts o).
Proof.
  destruct o as [q|]; [|reflexivity]. unfold node. cbn [option_map renamed_node]. rewrite !rename_length. try rewrite rename_firstn. reflexivity.
Qed.
Lemma rust_alike : reads_alike r rust_parsers.
Proof.
  constructor.
  - repeat split; intros; (apply (spared_word (txt "for")) || apply (spared_word (txt "in")) || apply (spared_word [95%N])); try assumption; vm_compute; reflexivity.
  - exact (plain_rename r W).
  - intros [|[x|c j|l|d g] ts]; try reflexivity.
    + destruct ts as [|[y|c' j'|l'|d' g'] ts]; try reflexivity. cbn. rewrite L. reflexivity.
    + cbn. rewrite L. reflexivity.
  - intros [|[x|c j|l|d g] ts]; try reflexivity. cbn. rewrite L. reflexivity.
  - intros ts. cbn [pre_path rust_parsers]. rewrite follows_nt. apply node_rename.
  - intros ts. cbn [pre_type rust_parsers]. unfold rust_pre_type. rewrite follows_nt, node_rename. destruct (node ts (nt_ (NType true) ts)) as [[[n k] u]|]; [reflexivity|]. cbn [renamed_node option_map].
    destruct ts as [|[x|c j|l|[| | |] g] ts]; try reflexivity. cbn [SpecRename.rename map SpecRename.rename1]. change (map (rename1 r) g) with (rename g). rewrite follows_nt.
    destruct (nt_ (NType true) g) as [[|t q]|]; try reflexivity. cbn [option_map]. change (rename (t :: q)) with (rename1 r t :: rename q). cbv iota. unfold is_comma. rewrite punct_rename. destruct (is_punct 44%N t); [reflexivity|].
    change (rename1 r t :: rename q) with (rename (t :: q)). rewrite upto_rename. reflexivity.
  - intros ts. cbn [pre_expr rust_parsers]. rewrite follows_nt. apply node_rename.
Qed.
Lemma rust_block_rename ts : pre_block rust_parsers (rename ts) = option_map (fun '(b, k, u) => (rename_block r b, k, u)) (pre_block rust_parsers ts).
Proof.
  cbn [pre_block rust_parsers]. destruct ts as [|[x|c j|l|[] b] q]; try reflexivity. cbn [SpecRename.rename map SpecRename.rename1].
  change (map (rename1 r) b) with (rename b). rewrite (m_stmts r W K J RustInstance.depth : makes r (rename_block r) stmts_). destruct (stmts_ b); reflexivity.
Qed.
End Headers.

Lemma rust_fit bs : all_names bs -> Forall (free_of bs) grammar_words -> (forall x, known rust x = true -> free_of bs x) -> names_fit rust rust_parsers bs.
Proof.
  intros N W F. assert (W' : Forall (spared (naming_of bs)) grammar_words) by (eapply Forall_impl; [|exact W]; intros w Hw; apply free_spared; assumption).
  constructor; [exact N| |exact F|apply rust_alike; [exact W'|reflexivity]|apply rust_block_rename; [exact W'|reflexivity]].
  apply Forall_forall. intros w Hw. apply (proj1 (Forall_forall _ _) W).
  assert (E : forallb is_grammar_word printed_words = true) by (vm_compute; reflexivity).
  pose proof (proj1 (forallb_forall _ _) E w Hw) as H. apply existsb_exists in H as (w' & Hi & E'). apply str_eqb_eq in E'. subst w'. exact Hi.
Qed.
