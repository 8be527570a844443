(** Specification of the spans of the generated code when keywords of items are names of
    aliases: SpecKeywords.v on tokens that carry spans. *)
From Coq Require Import String.
From Verif Require Import Base Token Types Values Ast Env Eval Item SpecKeywords Failures
  SpanTokens SpanWalker SpanValues SpanEval SpanItem SpanVisitor SpecSpans SpecSpanEval.
Open Scope list_scope.

Inductive spiece :=
| SKeyword (x : string) (s : span)
| SReplaced (ts : list stt)
| SEnclosed (d : delim) (s : span) (l : list spiece).
Definition skeyword_if (o : option span) (x : string) : list spiece := match o with Some s => [SKeyword x s] | None => [] end.

Fixpoint pitem_pieces (i : pitem) : list spiece :=
  match i with
  | PFn a v s g b =>
      [SReplaced (pattrs_tokens (pouter a) ++ v ++ s); SEnclosed Brace g (SReplaced (pattrs_tokens (pinner a)) :: flat_map pstmt_pieces b)]
  | PStruct a v k x g f semi =>
      [SReplaced (pattrs_tokens (pouter a) ++ v); SKeyword "struct" k;
       SReplaced (pname_tokens x ++ pg_params g ++ pfields_tokens f ++ match f with PNamed _ _ _ => [] | _ => [ssym ";" semi] end)]
  | PEnum a v k x g s l t =>
      [SReplaced (pattrs_tokens (pouter a) ++ v); SKeyword "enum" k;
       SReplaced (pname_tokens x ++ pg_params g ++ [sgroup Brace s (ppunctuated pvariant_tokens "," t l)])]
  | PUnion a v k x g s l t =>
      [SReplaced (pattrs_tokens (pouter a) ++ v); SKeyword "union" k;
       SReplaced (pname_tokens x ++ pg_params g ++ [sgroup Brace s (ppunctuated pfield_tokens "," t l)])]
  | PTrait a v u au k x g c sup t s l =>
      [SReplaced (pattrs_tokens (pouter a) ++ v)] ++ skeyword_if u "unsafe" ++ skeyword_if au "auto" ++
      [SKeyword "trait" k;
       SReplaced (pname_tokens x ++ pg_params g ++ match sup with [] => [] | _ => ssym ":" c :: ppunctuated (fun b => b) "+" t sup end);
       SEnclosed Brace s (SReplaced (pattrs_tokens (pinner a)) :: flat_map ptrait_item_pieces l)]
  | PImpl a d u k g tr ty s l =>
      [SReplaced (pattrs_tokens (pouter a))] ++ skeyword_if d "default" ++ skeyword_if u "unsafe" ++
      [SKeyword "impl" k; SReplaced (pg_params g)] ++
      match tr with
      | Some (bang, path, for_) => [SReplaced (match bang with Some b => [ssym "!" b] | None => [] end ++ path); SKeyword "for" for_]
      | None => []
      end ++
      [SReplaced ty; SEnclosed Brace s (SReplaced (pattrs_tokens (pinner a)) :: flat_map pimpl_item_pieces l)]
  | PMod a v u k x s c =>
      [SReplaced (pattrs_tokens (pouter a) ++ v)] ++ skeyword_if u "unsafe" ++ [SKeyword "mod" k; SReplaced (pname_tokens x)] ++
      match c with
      | Some l => [SEnclosed Brace s (SReplaced (pattrs_tokens (pinner a)) :: flat_map pitem_pieces l)]
      | None => [SReplaced [ssym ";" s]]
      end
  | PForeign a u k abi s l =>
      [SReplaced (pattrs_tokens (pouter a))] ++ skeyword_if u "unsafe" ++
      [SKeyword "extern" k; SReplaced (match abi with Some (v, p, z) => [SLit (LStr v p) z] | None => [] end);
       SEnclosed Brace s [SReplaced (pattrs_tokens (pinner a) ++ List.concat l)]]
  | POther ts => [SReplaced ts]
  end
with pstmt_pieces (s : pstmt) : list spiece :=
  match s with PSItem i => pitem_pieces i | PSOther ts => [SReplaced ts] end
with ptrait_item_pieces (i : ptrait_item) : list spiece :=
  match i with
  | PTFn a s g (Some b) =>
      [SReplaced (pattrs_tokens (pouter a) ++ s); SEnclosed Brace g (SReplaced (pattrs_tokens (pinner a)) :: flat_map pstmt_pieces b)]
  | PTFn a s g None => [SReplaced (pattrs_tokens (pouter a) ++ s ++ [ssym ";" g])]
  | PTOther _ ts => [SReplaced ts]
  end
with pimpl_item_pieces (i : pimpl_item) : list spiece :=
  match i with
  | PMFn a v d s g b =>
      [SReplaced (pattrs_tokens (pouter a) ++ v)] ++ skeyword_if d "default" ++
      [SReplaced s; SEnclosed Brace g (SReplaced (pattrs_tokens (pinner a)) :: flat_map pstmt_pieces b)]
  | PMOther _ ts => [SReplaced ts]
  end.
Definition pblock_pieces (l : list pstmt) : list spiece := flat_map pstmt_pieces l.

(** The tokens of pieces, with [f] done to what is replaced. *)
Fixpoint spiece_code (f : list stt -> list stt) (p : spiece) : list stt :=
  match p with
  | SKeyword x s => [SIdent (txt x) s]
  | SReplaced ts => f ts
  | SEnclosed d s l => [SGroup d (flat_map (spiece_code f) l) (single s)]
  end.
Definition spieces_code (f : list stt -> list stt) (l : list spiece) : list stt := flat_map (spiece_code f) l.
(** Pieces without the spans. *)
Fixpoint erase_piece (p : spiece) : piece :=
  match p with
  | SKeyword x _ => Keyword x
  | SReplaced ts => Replaced (map erase ts)
  | SEnclosed d _ l => Enclosed d (map erase_piece l)
  end.

(** [sround_code] of SpecSpanCode with the keywords left alone, each with its span. *)
Definition skept_code (O : oracles) (SO : soracles) (env : Env.environment) (block : list pstmt) (items : list sitem) : sres (list stt) :=
  let? bs := sbindings O SO env items in
  SOk (spieces_code (ssubstituted O (fun x => assoc_str x (erase_bindings bs)) (fun x => option_map sto_tokens (assoc_str x bs))) (pblock_pieces block)).
