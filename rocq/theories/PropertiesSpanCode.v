(** C81: the spans of the generated code, token by token.  [alike] (the same tokens with the
    same spans, of a group the span of the whole), [sfaithful] and [scovers] (parsers whose
    results print as the tokens parsed), [sround_code] (the block with the tokens of the values
    in place of the aliases), [decorated] (attributes for a warning put in) and
    [semicolons] are in SpecSpanCode. *)
From Coq Require Import String.
From Verif Require Import Base Token Types Values Ast Env Item Deprecation Interpreter Parse Macro SpecItem SpecMacro SpecDeprecation
  SpanTokens SpanWalker SpanValues SpanEval SpanItem SpanVisitor SpanDeprecation SpanParse SpanMacro SpecSpans SpecSpanEval SpecSpanItem SpecSpanMacro SpecSpanUnroll
  SpecSpanCode SpanCodeProofs SpanCodeMacroProofs SpanInstance SpanDress SpanDressProofs SpanDressPrint
  RustLexer RustInstance RustLaws SpanRust.
Open Scope list_scope.

(** What the visitor makes of a block prints as the block with each alias replaced: no other
    token has moved or changed its span. *)
Theorem C81_block : forall O SO lookup salias SN, sfaithful SO SN -> (forall k, In k item_keywords -> salias k = None) -> forall l l',
  svisit_block O SO lookup salias SN l = SOk l' ->
  alike (pblock_tokens l') (ssubstituted O lookup salias (pblock_tokens (map pdrop_where_stmt l))).
Proof. exact block_emit. Qed.
Print Assumptions C81_block.

(** So the code of a use is that of its rounds, one after the other; semicolons have attributes
    put in, all at the call site, and nothing else. *)
Theorem C81_code : forall O SO P SP SY, spanless O SO -> spanless_parsers P SP -> sfaithful SO (snodes SY) -> scovers SY -> forall uses,
  Forall2 (fun u o => forall ast ts, o = SCode ts ->
    sp_ast (sinv_parsed (sinvocation_for O P SP u)) = inl ast ->
    (forall x, In x item_keywords -> ~ In x (sast_aliases ast)) ->
    exists rs codes mid, has_rounds ast rs /\
      Forall2 (fun items code => sround_code O SO (new_initialized O (su_seed u) (su_first_id u)) (sa_block ast) items = SOk code) rs codes /\
      alike mid (List.concat codes) /\
      ((semicolons ast /\ exists prefix, decorated (with_prefix prefix semicolon_warning) mid ts) \/ (~ semicolons ast /\ ts = mid)))
    uses (sexpand_uses O SO P SP SY uses).
Proof. exact uses_code. Qed.
Print Assumptions C81_code.

(** The laws hold of any parsers made into ones with spans, if they hold without, as they do
    for the grammar of Rust. *)
Theorem C81_laws : (forall O Y, faithful O (reparse Y) -> sfaithful (dressed O) (snodes (dressed_syntax Y))) /\
  (forall Y, covers Y -> scovers (dressed_syntax Y)) /\
  sfaithful (dressed rust) (snodes (dressed_syntax rust_syntax)) /\ scovers (dressed_syntax rust_syntax) /\
  spanless rust (dressed rust) /\ spanless_parsers rust_parsers (dressed_parsers rust_parsers).
Proof.
  exact (conj dressed_faithful (conj dressed_covers (conj (dressed_faithful rust rust_syntax rust_faithful) (conj (dressed_covers rust_syntax rust_covers)
    (conj (dressed_spanless rust) (dressed_spanless_parsers rust_parsers)))))).
Qed.
Print Assumptions C81_laws.

(** And a block is read with the spans it was written with: if it prints as the tokens it was
    read from, it prints with their spans. *)
Theorem C81_reading : forall b l, block_tokens b = map erase l -> alike (pblock_tokens (dress_block b l)) l.
Proof. exact block_read. Qed.
Print Assumptions C81_reading.

(** Two rounds of a struct: [pub] (11), [struct] (12), the braces (20) and the field stay where
    they were written, the name is at each value (5 and 7). *)
Example C81_example :
  let round (x : string) (n : span) := ([SIdent (txt "pub") 11; SIdent (txt "struct") 12; SIdent (txt x) n;
    SGroup Brace [SIdent (txt "f") 15; SPunct 58 false 16; SIdent (txt "u8") 17; SPunct 44 false 18] {| ds_open := 20; ds_close := 20; ds_entire := 20 |}])%N in
  placed (SCompose (numbered_text 1 "for a in [x, y] { pub struct a { f: u8, } }")) = [SCode (round "x"%string 5%N ++ round "y"%string 7%N)] /\
  (forall x, In x item_keywords -> x <> txt "a").
Proof. split; [vm_compute; reflexivity|]. intros x H E. subst x. vm_compute in H. intuition discriminate. Qed.

(** With a semicolon there is an attribute in front, at the call site. *)
Example C81_warning :
  match placed (SCompose (numbered_text 1 "a = upper(x); { fn a() {} }")) with
  | [SCode (SPunct c _ n :: SGroup Bracket (SIdent d m :: _) z :: rest)] =>
      c = 35 /\ n = call_site /\ d = txt "deprecated" /\ m = call_site /\ ds_entire z = call_site /\
      map span_of rest = [10; 5; 14; 17]
  | _ => False
  end%N.
Proof. vm_compute. repeat split. Qed.
