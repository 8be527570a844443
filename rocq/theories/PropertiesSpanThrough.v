(** C87: what parsing an input with invisible groups yields, spans and messages included, next
    to what it yields for the same tokens without the groups.  [sflats], [spart_of],
    [stransparent_at], [same_sparse] and [moved] are in SpecSpanInvisible, [all_fine] in
    SpecInvisible, [within] in SpecParse. *)
From Coq Require Import String.
From Verif Require Import Base Token Types Values Ast Item Interpreter Parse Macro RustLexer RustInstance RustLaws InvisibleParse SpecParse SpecInvisible InvisibleInstance
  SpanTokens SpanValues SpanEval SpanInstance SpanParse SpanMacro SpanDress SpanRust SpanInvisible SpecSpanInvisible SpanInvisibleInstance SpanThrough.
Open Scope list_scope.

(** C87: if [syn]'s own parsers read through invisible groups, none is empty and none holds a
    comma at its top: the input parses to the same values with the same spans, but for the
    invisible groups kept in them and for the spans of calls and of tuples in loops, which
    begin at the invisible group if they begin with one; or to the same messages, each of them
    where the parser stands. *)
Theorem C87_transparent : forall P SP has_func n ts, all_fine (map erase ts) = true -> (forall s, spart_of ts s -> stransparent_at SP s) ->
  same_sparse (spart_of ts) SP (through_func_macro P SP has_func n ts) (sparse_func_macro P SP has_func n (sflats ts)).
Proof. exact sfunc_through. Qed.
Print Assumptions C87_transparent.
Theorem C87_transparent_item : forall P SP has_func n attr item, all_fine (map erase attr) = true -> all_fine (map erase item) = true ->
  (forall s, spart_of attr s \/ spart_of [SpanItem.sgroup Brace call_site item] s -> stransparent_at SP s) ->
  same_sparse (fun s => spart_of attr s \/ spart_of [SpanItem.sgroup Brace call_site item] s) SP
    (through_attr_macro P SP has_func n attr item) (sparse_attr_macro P SP has_func n (sflats attr) (sflats item)).
Proof. exact sattr_through. Qed.
Print Assumptions C87_transparent_item.

(** C87: in short, each message is the one for the input without invisible groups, or that
    same text at the opening of an invisible group, whose first token the other is at.  What
    [syn] says where there is no block is its own affair. *)
Theorem C87_messages : forall P SP has_func n ts, all_fine (map erase ts) = true -> (forall s, spart_of ts s -> stransparent_at SP s) ->
  forall e, sp_ast (through_func_macro P SP has_func n ts) = inr e ->
  exists e', sp_ast (sparse_func_macro P SP has_func n (sflats ts)) = inr e' /\
    (Forall2 (moved (spart_of ts)) e e' \/ exists l, spart_of ts l /\ e = block_error SP l /\ e' = block_error SP (sflats l)).
Proof. exact sfunc_messages. Qed.
Print Assumptions C87_messages.
Theorem C87_messages_item : forall P SP has_func n attr item, all_fine (map erase attr) = true -> all_fine (map erase item) = true ->
  (forall s, spart_of attr s \/ spart_of [SpanItem.sgroup Brace call_site item] s -> stransparent_at SP s) ->
  forall e, sp_ast (through_attr_macro P SP has_func n attr item) = inr e ->
  exists e', sp_ast (sparse_attr_macro P SP has_func n (sflats attr) (sflats item)) = inr e' /\
    (Forall2 (moved (fun s => spart_of attr s \/ spart_of [SpanItem.sgroup Brace call_site item] s)) e e' \/
     exists l, (spart_of attr l \/ spart_of [SpanItem.sgroup Brace call_site item] l) /\ e = block_error SP l /\ e' = block_error SP (sflats l)).
Proof. exact sattr_messages. Qed.
Print Assumptions C87_messages_item.

(** C87: there are parsers with spans that read through all invisible groups. *)
Theorem C87_instance : forall P, within P -> forall ts, stransparent_at (sreading_through (dressed_parsers P)) ts.
Proof. exact sinstance_transparent. Qed.
Print Assumptions C87_instance.

(** [for «(x, y)» in [«(1, «2»)»] «a» = «upper(«x»)»; { fn «a»() {} }] meets the hypotheses and
    parses.  With its groups the tuple begins at 13 and the call at 32; without them, at 14 and
    33.  All else is the same. *)
Example C87_example :
  let P := reading_through rust_parsers in let SP := sreading_through (dressed_parsers rust_parsers) in
  let ts := numbered_all (lex "for" ++ [h "(x, y)"] ++ lex "in" ++ [TGroup Bracket [hidden [TGroup Paren (lex "1 ," ++ [h "2"])]]] ++
              [h "a"] ++ lex "=" ++ [hidden (lex "upper" ++ [TGroup Paren [h "x"]])] ++ lex ";" ++ [TGroup Brace (lex "fn" ++ [h "a"] ++ lex "() {}")]) 1 in
  let begins p := match sp_ast p with
                  | inl {| sa_loops := Some [{| sl_values := [SLSTuple t _] |}]; sa_spec := Some {| ss_items := [(_, SECall _ _ c _ _)] |} |} => Some (t, c)
                  | _ => None
                  end in
  all_fine (map erase ts) = true /\ (forall s, stransparent_at SP s) /\ ts <> sflats ts /\
  begins (through_func_macro P SP (known rust) 0 ts) = Some (13%N, 32%N) /\
  begins (sparse_func_macro P SP (known rust) 0 (sflats ts)) = Some (14%N, 33%N).
Proof.
  intros P SP ts begins. split; [vm_compute; reflexivity|]. split; [intros s; apply sinstance_transparent, rust_within|].
  split; [vm_compute; discriminate|]. split; vm_compute; reflexivity.
Qed.

(** [for «(x, 1)» in [(p, q)] {}], [a = upper(x) «+», {}], [a = upper(x) «b», {}],
    [«1» = x, {}] and [a = upper(x), «+»]: the messages are the same; where they are is not, if
    it begins with an invisible group, but for the plus sign where a separator is looked for. *)
Example C87_errors :
  let P := reading_through rust_parsers in let SP := sreading_through (dressed_parsers rust_parsers) in
  let said p := match sp_ast p with inr e => map (fun m => (m_text m, m_start m)) e | inl _ => [] end in
  let both ts x := let ts := numbered_all ts 1 in
    (map snd (said (through_func_macro P SP (known rust) 0 ts)), map snd (said (sparse_func_macro P SP (known rust) 0 (sflats ts)))) = x /\
    map fst (said (through_func_macro P SP (known rust) 0 ts)) = map fst (said (sparse_func_macro P SP (known rust) 0 (sflats ts))) in
  both (lex "for" ++ [h "(x, 1)"] ++ lex "in [(p, q)] { }") ([2%N; 6%N; 2%N], [3%N; 6%N; 3%N]) /\
  both (lex "a = upper(x)" ++ [h "+"] ++ lex ", { }") ([8%N; 9%N; 9%N], [9%N; 9%N; 9%N]) /\
  both (lex "a = upper(x)" ++ [h "b"] ++ lex ", { }") ([8%N; 8%N; 8%N], [9%N; 9%N; 9%N]) /\
  both ([h "1"] ++ lex "= x, { }") ([1%N], [2%N]) /\
  both (lex "a = upper(x)," ++ [h "+"]) ([9%N], [10%N]).
Proof. repeat split; vm_compute; reflexivity. Qed.

(** [#[compose_item(a = upper(x) «2»)] fn «a»() {}], [#[compose_item(for x in [y] «,»)] fn x() {}] and
    [#[compose_item(for x in [y])] fn «x»() {}]. *)
Example C87_item :
  let P := reading_through rust_parsers in let SP := sreading_through (dressed_parsers rust_parsers) in
  let said p := match sp_ast p with inr e => Some (map m_start e) | inl _ => None end in
  let both attr item := let attr := numbered_all attr 1 in let item := numbered_all item 100 in
    (said (through_attr_macro P SP (known rust) 0 attr item), said (sparse_attr_macro P SP (known rust) 0 (sflats attr) (sflats item))) in
  both (lex "a = upper(x)" ++ [h "2"]) (lex "fn" ++ [h "a"] ++ lex "() {}") = (Some [8%N; 8%N; 8%N], Some [9%N; 9%N; 9%N]) /\
  both (lex "for x in [y]" ++ [h ","]) (lex "fn x() {}") = (Some [8%N], Some [9%N]) /\
  both (lex "for x in [y]") (lex "fn" ++ [h "x"] ++ lex "() {}") = (None, None).
Proof. repeat split; vm_compute; reflexivity. Qed.
