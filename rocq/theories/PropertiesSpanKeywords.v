(** C83, with spans: the code of a block whose keywords are names of aliases, token by token as
    in C81 but for any aliases.  The pieces with their spans ([pblock_pieces], [spieces_code])
    and the code of a round with the keywords left alone ([skept_code]) are in
    SpecSpanKeywords. *)
From Coq Require Import String.
From Verif Require Import Base Token Types Values Ast Env Item Deprecation Interpreter Parse Macro SpecItem SpecMacro SpecDeprecation SpecKeywords
  SpanTokens SpanWalker SpanValues SpanEval SpanItem SpanVisitor SpanDeprecation SpanParse SpanMacro SpecSpans SpecSpanEval SpecSpanItem SpecSpanMacro SpecSpanUnroll
  SpecSpanCode SpecSpanKeywords SpanKeywordsProofs SpanInstance SpanRust.
Open Scope list_scope.

(** The pieces, unchanged, are the block with its spans; without their spans they are those of
    C83. *)
Theorem C83_span_pieces : forall l, spieces_code (fun ts => ts) (pblock_pieces l) = pblock_tokens (map pdrop_where_stmt l) /\
  map erase_piece (pblock_pieces l) = block_pieces (map erase_stmt l).
Proof. exact (fun l => conj (pblock_printed l) (pblock_erased l)). Qed.
Print Assumptions C83_span_pieces.

(** Whatever the aliases are named, every keyword stays and has the span it was written with. *)
Theorem C83_span_block : forall O SO lookup salias SN, sfaithful SO SN -> forall l l',
  svisit_block O SO lookup salias SN l = SOk l' ->
  alike (pblock_tokens l') (spieces_code (ssubstituted O lookup salias) (pblock_pieces l)).
Proof. exact block_kept. Qed.
Print Assumptions C83_span_block.

(** C81_code for any aliases. *)
Theorem C83_span_code : forall O SO P SP SY, spanless_parsers P SP -> sfaithful SO (snodes SY) -> scovers SY -> forall uses,
  Forall2 (fun u o => forall ast ts, o = SCode ts ->
    sp_ast (sinv_parsed (sinvocation_for O P SP u)) = inl ast ->
    exists rs codes mid, has_rounds ast rs /\
      Forall2 (fun items code => skept_code O SO (new_initialized O (su_seed u) (su_first_id u)) (sa_block ast) items = SOk code) rs codes /\
      alike mid (List.concat codes) /\
      ((semicolons ast /\ exists prefix, decorated (with_prefix prefix semicolon_warning) mid ts) \/ (~ semicolons ast /\ ts = mid)))
    uses (sexpand_uses O SO P SP SY uses).
Proof. exact suses_kept. Qed.
Print Assumptions C83_span_code.

(** The keyword [union] (6) stays where it was written; the type of the field, the same word,
    gets the span of the value (3). *)
Example C83_span_example :
  placed (SCompose (numbered_text 1 "union = x, { union U { a: union } }")) =
    [SCode [SIdent (txt "union") 6; SIdent (txt "U") 7;
            SGroup Brace [SIdent (txt "a") 9; SPunct 58 false 10; SIdent (txt "x") 3] {| ds_open := 13; ds_close := 13; ds_entire := 13 |}]%N].
Proof. vm_compute. reflexivity. Qed.
