(** The Rust instance with spans: every token and delimiter has a place of its own. *)
From Coq Require Import String.
From Verif Require Import Base Token Types Values Item Interpreter Parse Macro RustLexer RustInstance
  SpanTokens SpanValues SpanInstance SpanParse SpanMacro SpecSpanEval SpecSpanItem SpecSpanMacro SpanDress SpanDressProofs.
Open Scope list_scope.

(** A text, its tokens numbered from [n]. *)
Definition numbered_text (n : N) (x : string) : list stt := numbered_all (lex x) n.
Definition placed (s : ssource) : list soutput :=
  sexpand_uses rust (dressed rust) rust_parsers (dressed_parsers rust_parsers) (dressed_syntax rust_syntax)
    [{| su_source := s; su_seed := 1; su_first_id := 100; su_next_id := 1000 |}].
(** The texts of the messages, each with its place. *)
Definition shown (os : list soutput) : list (str * span) :=
  map (fun m => (m_text m, m_start m)) (flat_map said os).

Lemma rust_inherited : inherited (dressed rust).
Proof. apply dressed_inherited. repeat split; vm_compute; reflexivity. Qed.
Lemma rust_inherited_parsers : inherited_parsers (dressed rust) (dressed_parsers rust_parsers).
Proof. apply dressed_inherited_parsers. split; vm_compute; reflexivity. Qed.
Lemma dressed_joins O a b s : join (dressed O) a b = Some s -> s = a \/ s = b.
Proof. cbn. destruct (N.eqb a b); [injection 1 as <-; left; reflexivity|discriminate]. Qed.
