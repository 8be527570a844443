(** The laws on conversions hold of the Rust instance. *)
From Coq Require Import String.
From Verif Require Import Base Token Types Values RustLexer RustGrammar RustInstance Concrete SpecInvisible SpecConvertTwice.
Open Scope list_scope.

Lemma whole_again f ts p : whole f ts = Some p -> p = ts /\ whole f p = Some p.
Proof. unfold whole. destruct (all f ts) eqn:E; [|discriminate]. intros H. injection H as <-. rewrite E. split; reflexivity. Qed.
Lemma rust_path ts : parse_path rust ts = whole (nt_ (NPath false)) ts. Proof. reflexivity. Qed.
Lemma rust_type ts : parse_type rust ts = whole (nt_ (NType true)) ts. Proof. reflexivity. Qed.
Lemma rust_expr ts : parse_expr rust ts = whole (nt_ (NExpr true)) ts. Proof. reflexivity. Qed.
Lemma rust_ident ts : parse_ident rust ts = match ts with [TIdent x] => if plain_ident x then Some x else None | _ => None end. Proof. reflexivity. Qed.
Lemma rust_text x : parse_str_ident rust x = match lex_text x with Some [TIdent y] => if plain_ident y then Some y else None | _ => None end. Proof. reflexivity. Qed.
Lemma ident_again ts x : parse_ident rust ts = Some x -> parse_ident rust [TIdent x] = Some x.
Proof.
  rewrite !rust_ident. destruct ts as [|[y| | |] [|]]; intros H; try discriminate H. destruct (plain_ident y) eqn:E; [|discriminate H]. injection H as <-. rewrite E. reflexivity.
Qed.
Lemma text_again s x : parse_str_ident rust s = Some x -> parse_ident rust [TIdent x] = Some x.
Proof.
  rewrite rust_ident, rust_text. generalize (lex_text s) as l. intros l H. destruct l as [l|]; [|discriminate H]. destruct l as [|[y| | |] [|]]; try discriminate H.
  destruct (plain_ident y) eqn:E; [|discriminate H]. injection H as <-. rewrite E. reflexivity.
Qed.
Lemma path_again ts p : parse_path rust ts = Some p -> p = ts /\ parse_path rust p = Some p.
Proof. rewrite !rust_path. apply whole_again. Qed.
Lemma type_again ts p : parse_type rust ts = Some p -> p = ts /\ parse_type rust p = Some p.
Proof. rewrite !rust_type. apply whole_again. Qed.
Lemma expr_again ts p : parse_expr rust ts = Some p -> p = ts /\ parse_expr rust p = Some p.
Proof. rewrite !rust_expr. apply whole_again. Qed.
Lemma rust_rereads : rereads rust.
Proof.
  constructor.
  - exact ident_again.
  - exact text_again.
  - intros ts p H. exact (proj2 (path_again ts p H)).
  - intros ts p H. exact (proj2 (type_again ts p H)).
  - intros ts p H. exact (proj2 (expr_again ts p H)).
  - reflexivity.
  - reflexivity.
  - reflexivity.
  - reflexivity.
  - reflexivity.
Qed.
Lemma rust_prints_read : prints_read rust.
Proof. intros ts p _ [H|[H|H]]; [exact (proj1 (path_again _ _ H))|exact (proj1 (type_again _ _ H))|exact (proj1 (expr_again _ _ H))]. Qed.
