(** C95: what placeholders show of the values.  [shown] is in SpecFormat; [quoted], [nameable],
    [prints_leaves], [names_of] and [with_colons] are in SpecShown. *)
From Coq Require Import String.
From Verif Require Import Base Token Types Values Item Deprecation Interpreter Parse Macro FormatString SubstituteIdents
  Concrete ConcreteParse RustLexer RustGrammar RustInstance SpecFormat SpecShown ShownProofs.
Open Scope list_scope.

(** C95: [%a%] stands for what the value of [a] is shown as. *)
Theorem C95_placeholder : forall O lookup a v, nameable O a -> lookup a = Some v -> format_string O lookup (quoted a) = shown O v.
Proof. exact placeholder_shown. Qed.
Print Assumptions C95_placeholder.

(** C95: for values that are neither strings nor paths this is how the code put for [a]
    prints. *)
Theorem C95_as_printed_partial : forall O v, prints_leaves O ->
  match v with VPath _ | VLitStr _ _ => True | _ => shown O v = to_string O (to_tokens v) end.
Proof. exact shown_printed. Qed.
Print Assumptions C95_as_printed_partial.
Theorem C95_rust_prints : prints_leaves rust.
Proof. exact rust_prints. Qed.
Print Assumptions C95_rust_prints.

(** C95: of a string it is the text between the quotes. *)
Theorem C95_string : forall O text spelling, shown O (VLitStr text spelling) = text.
Proof. reflexivity. Qed.
Print Assumptions C95_string.

(** C95: of a path it is the names; the arguments between angle brackets are left out, and so
    are leading colons. *)
Theorem C95_path : forall ts l, names_of (fun args rest => (opt (op "::") ;;; ch "<" ;;; nt_ NAngle) (args ++ rest) = Some rest) ts l ->
  shown rust (VPath ts) = with_colons l /\ shown rust (VPath (double_colon ++ ts)) = with_colons l.
Proof. intros ts l H. split; [exact (path_shown ts l H)|exact (leading_colons_shown ts l H)]. Qed.
Print Assumptions C95_path.

(** C95: an alias and a placeholder side by side. *)
Theorem C95_side_by_side : forall O lookup N (parse : list tt -> option N) a v spelling n, nameable O a -> lookup a = Some v ->
  parse_lit_str O [TLit (LStr (quoted a) spelling)] = Some (quoted a, spelling) ->
  substitute_idents O lookup parse [TIdent a; TLit (LStr (quoted a) spelling)] = Ok n ->
  parse (to_tokens v ++ [TLit (LStr (shown O v) [])]) = Some n.
Proof. exact side_by_side. Qed.
Print Assumptions C95_side_by_side.

(** [a::<u8, B>::c<D>::e]. *)
Example C95_path_example :
  names_of (fun args rest => (opt (op "::") ;;; ch "<" ;;; nt_ NAngle) (args ++ rest) = Some rest)
    (lex "a::<u8, B>::c<D>::e") [txt "a"; txt "c"; txt "e"] /\
  with_colons [txt "a"; txt "c"; txt "e"] = txt "a::c::e".
Proof.
  split; [|reflexivity].
  change (names_of (fun args rest => (opt (op "::") ;;; ch "<" ;;; nt_ NAngle) (args ++ rest) = Some rest)
    (TIdent (txt "a") :: lex "::<u8, B>" ++ double_colon ++ TIdent (txt "c") :: lex "<D>" ++ double_colon ++ [TIdent (txt "e")]) [txt "a"; txt "c"; txt "e"]).
  constructor 4; [vm_compute; reflexivity|]. constructor 4; [vm_compute; reflexivity|]. constructor 1.
Qed.

(** C95: so the text does not tell what the code is: [Vec<u8>] and [Vec<u16>] are shown
    alike, and not as they print. *)
Theorem C95_same_text_refuted : exists u u',
  u = use_of (Compose (lex "t = Vec<u8>, { const N: &str = ""%t%""; type T = t; }")) /\
  u' = use_of (Compose (lex "t = ::Vec<u16>, { const N: &str = ""%t%""; type T = t; }")) /\
  expand_uses rust rust_parsers rust_syntax [u] = code "const N: &str = ""Vec""; type T = Vec<u8>;" /\
  expand_uses rust rust_parsers rust_syntax [u'] = code "const N: &str = ""Vec""; type T = ::Vec<u16>;" /\
  shown rust (VPath (lex "Vec<u8>")) <> to_string rust (to_tokens (VPath (lex "Vec<u8>"))).
Proof.
  eexists _, _. split; [reflexivity|]. split; [reflexivity|]. split; [vm_compute; reflexivity|]. split; [vm_compute; reflexivity|]. vm_compute. discriminate.
Qed.
Print Assumptions C95_same_text_refuted.

(** Types that are no paths are shown in full. *)
Example C95_example :
  expand_uses rust rust_parsers rust_syntax [use_of (Compose (lex "t = &Vec<u8>, n = 10_u8, s = ""x"", { const N: &str = ""%t%""; const S: &str = ""%n%/%s%""; }"))] =
  [Code (lex "const N: &str = ""& Vec < u8 >""; const S: &str = ""10_u8/x"";")].
Proof. vm_compute. reflexivity. Qed.
