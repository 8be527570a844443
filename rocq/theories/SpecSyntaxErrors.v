(** The inputs that are rejected, as relations between tokens and what is said of them and
    where.  The part of the input before the error is described by the grammar (SpecGrammar);
    [close] is where errors at the end are reported: the closing delimiter inside a group,
    the whole macro outside. *)
From Coq Require Import String.
From Verif Require Import Base Token Types Values Ast Item Parse SpecSubst SpecParse SpecGrammar SpanTokens SpanItem SpanValues SpanEval SpanParse SpanMacro.
Open Scope list_scope.

(** ** Messages *)
Definition says (s : span) (x : str) : syn_message := {| m_text := x; m_start := s; m_end := s |}.
(** [::core::compile_error! { "text" }], from the beginning of what is marked to its end. *)
Definition spelled (m : syn_message) : list stt :=
  [SPunct 58%N true (m_start m); SPunct 58%N false (m_start m); SIdent (txt "core") (m_start m);
   SPunct 58%N true (m_start m); SPunct 58%N false (m_start m); SIdent (txt "compile_error") (m_start m); SPunct 33%N false (m_start m);
   SGroup Brace [SLit (LStr (m_text m) []) (m_end m)] {| ds_open := m_end m; ds_close := m_end m; ds_entire := m_end m |}].
(** Where the tokens ahead begin. *)
Definition here (close : span) (ts : list stt) : span :=
  match ts with
  | [] => close
  | SGroup _ _ s :: _ => ds_open s
  | SIdent _ s :: _ | SPunct _ _ s :: _ | SLit _ s :: _ => s
  end.
Definition at_end (ts : list stt) (x : str) : str :=
  match ts with [] => txt "unexpected end of input, " ++ x | _ => x end.
Definition quoted (x : str) : str := txt "`" ++ x ++ txt "`".
Definition no_name (close : span) (ts : list stt) : syn_message :=
  says (here close ts) (at_end ts (txt "expected identifier" ++
    match ts with SIdent x _ :: _ => txt ", found keyword " ++ quoted x | _ => [] end)).
(** Punctuation that is missing at the end is not said to be missing at the end. *)
Definition no_punct (x : str) (close : span) (ts : list stt) : syn_message :=
  says (here close ts) (txt "expected " ++ quoted x).
Definition mixed (ts : list stt) : syn_message :=
  says (here call_site ts) (at_end ts (txt "Mixing "","" and "";"" as separators is not allowed")).
(** A group left over is marked as a whole. *)
Definition left_over (t : stt) : syn_message :=
  says (match t with SGroup _ _ s => ds_entire s | SIdent _ s | SPunct _ _ s | SLit _ s => s end) (txt "unexpected token").

(** ** Lists *)
(** A list whose first wrong item, or first missing comma, is reported. *)
Inductive list_error (close : span) (item : list tt -> nat -> Prop) (bad : list stt -> messages -> Prop) : list stt -> messages -> Prop :=
| wrong_item : forall ts ms, ts <> [] -> bad ts ms -> list_error close item bad ts ms
| missing_comma : forall ts k t r, ts <> [] -> item (map erase ts) k -> skipn k ts = t :: r -> commab (erase t) = false ->
    list_error close item bad ts [no_punct (txt ",") close (t :: r)]
| wrong_later : forall ts k s r ms, item (map erase ts) k -> skipn k ts = s :: r -> commab (erase s) = true ->
    list_error close item bad r ms -> list_error close item bad ts ms.

Section Errors.
Context (P : parsers) (SP : sparsers) (hf : str -> bool).

(** ** Loops *)
Inductive pattern_error : span -> list stt -> messages -> Prop :=
| no_pattern : forall close ts, ~ at_ident P (map erase ts) -> (forall inner s r, ts <> SGroup Paren inner s :: r) ->
    pattern_error close ts [no_name close ts]
| wrong_tuple : forall close inner s r ms,
    list_error (ds_close s) (fun ts k => exists x, pattern_at P ts x k) (pattern_error (ds_close s)) inner ms ->
    pattern_error close (SGroup Paren inner s :: r) ms.

(** What is wrong with a tuple is said between two more messages. *)
Inductive loop_alias_error : list stt -> messages -> Prop :=
| no_alias : forall ts, ~ at_ident P (map erase ts) -> (forall inner s r, ts <> SGroup Paren inner s :: r) ->
    loop_alias_error ts [no_name call_site ts]
| wrong_alias : forall inner s r ms, pattern_error call_site (SGroup Paren inner s :: r) ms ->
    loop_alias_error (SGroup Paren inner s :: r)
      (says (ds_open s) (txt "Failed to parse loop alias (see errors below)") :: ms ++ [says (ds_open s) (txt "expected identifier")]).

Inductive loops_error : list stt -> messages -> Prop :=
| wrong_pattern : forall f r ms, erase f = TIdent (txt "for") -> loop_alias_error r ms -> loops_error (f :: r) ms
| no_in : forall f pat al r, erase f = TIdent (txt "for") -> loop_alias_at P (erase pat) al ->
    (forall t r', r = t :: r' -> erase t <> TIdent (txt "in")) ->
    loops_error (f :: pat :: r) [says (here call_site r) (at_end r (txt "expected " ++ quoted (txt "in")))]
| no_brackets : forall f pat al kw r, erase f = TIdent (txt "for") -> loop_alias_at P (erase pat) al -> erase kw = TIdent (txt "in") ->
    (forall inner s r', r <> SGroup Bracket inner s :: r') ->
    loops_error (f :: pat :: kw :: r) [says (here call_site r) (at_end r (txt "expected square brackets"))]
(* every value parses as something, so only commas can be missing *)
| wrong_values : forall f pat al kw inner s r ms, erase f = TIdent (txt "for") -> loop_alias_at P (erase pat) al -> erase kw = TIdent (txt "in") ->
    list_error (ds_close s) (fun ts k => exists x, source_at P hf ts x k) (fun _ _ => False) inner ms ->
    loops_error (f :: pat :: kw :: SGroup Bracket inner s :: r) ms
| wrong_loop_later : forall f pat al kw inner s l r ms, erase f = TIdent (txt "for") -> loop_alias_at P (erase pat) al -> erase kw = TIdent (txt "in") ->
    listed (source_at P hf) (map erase inner) l -> loops_error r ms ->
    loops_error (f :: pat :: kw :: SGroup Bracket inner s :: r) ms.

(** ** Definitions *)
Inductive definition_error : list stt -> messages -> Prop :=
| no_definition : forall ts, ~ at_ident P (map erase ts) -> definition_error ts [no_name call_site ts]
| no_equals : forall x s r, ident_allowed P x = true -> (forall t r' j, r = t :: r' -> erase t <> TPunct 61%N j) ->
    definition_error (SIdent x s :: r) [no_punct (txt "=") call_site r]
| no_separator : forall x s q j vs e k u t r, ident_allowed P x = true -> erase q = TPunct 61%N j -> reads P hf (map erase vs) e k u ->
    skipn k vs = t :: r -> (forall c, ~ separates c (erase t)) ->
    definition_error (SIdent x s :: q :: vs)
      [says (here call_site (t :: r)) (txt "Unable to parse any of the combined tokens (see the errors below)");
       no_punct (txt ",") call_site (t :: r); no_punct (txt ";") call_site (t :: r)].
(** A definition and what is after it. *)
Inductive defined : list stt -> list stt -> Prop :=
| defined_ : forall x s q j vs e k u, ident_allowed P x = true -> erase q = TPunct 61%N j -> reads P hf (map erase vs) e k u ->
    defined (SIdent x s :: q :: vs) (skipn k vs).
(** [used]: the kind of separator used before, if any. *)
Inductive definitions_error : option bool -> list stt -> messages -> Prop :=
| wrong_definition : forall used ts ms, definition_error ts ms -> definitions_error used ts ms
| mixed_separators : forall c c' ts s r, defined ts (s :: r) -> separates c (erase s) -> c' <> c ->
    definitions_error (Some c') ts [mixed r]
| wrong_definition_later : forall used c ts s r ms, defined ts (s :: r) -> separates c (erase s) -> (used = None \/ used = Some c) ->
    at_ident P (map erase r) -> definitions_error (Some c) r ms -> definitions_error used ts ms.

Inductive header_error : list stt -> messages -> Prop :=
| wrong_loops : forall ts ms, loops_error ts ms -> header_error ts ms
| wrong_definitions : forall before ts loops u ms, loops_at P hf (map erase (before ++ ts)) loops u (map erase ts) -> at_ident P (map erase ts) ->
    definitions_error None ts ms -> header_error (before ++ ts) ms.

(** ** [compose!] *)
(** The header and the block, and what is left; [u] as in the grammar. *)
Inductive blocked : list stt -> option alias_spec -> bool -> list stt -> Prop :=
| blocked_ : forall before ts loops spec u block k u', header_at P hf (map erase (before ++ ts)) loops spec u (map erase ts) ->
    pre_block P (map erase ts) = Some (block, k, u') -> blocked (before ++ ts) spec (u || u') (skipn k ts).
Definition agrees (c : bool) (spec : option alias_spec) : Prop := forall sp, spec = Some sp -> is_comma_used sp = Some c.

Inductive func_error : list stt -> messages -> Prop :=
| wrong_header : forall ts ms, header_error ts ms -> func_error ts ms
| no_block : forall before ts loops spec u, header_at P hf (map erase (before ++ ts)) loops spec u (map erase ts) ->
    pre_block P (map erase ts) = None -> func_error (before ++ ts) (block_error SP ts)
| mixed_at_end : forall ts spec u s r c, blocked ts spec u (s :: r) -> separates c (erase s) -> ~ agrees c spec -> func_error ts [mixed r]
| left_after_block : forall ts spec t r, blocked ts spec false (t :: r) -> (forall c, ~ separates c (erase t)) -> func_error ts [left_over t]
| left_after_separator : forall ts spec s c t r, blocked ts spec false (s :: t :: r) -> separates c (erase s) -> agrees c spec ->
    func_error ts [left_over t].
(** The tokens left inside a group are reported, by syn, if nothing above is wrong. *)
Inductive func_unread : list stt -> Prop :=
| func_unread_ : forall ts spec rest, blocked ts spec true rest ->
    (forall s r c, rest = s :: r -> separates c (erase s) -> agrees c spec) -> func_unread ts.

(** ** [#[compose_item]] *)
(** The header and what is left of the attribute. *)
Inductive headed : list stt -> option (list loop_item) -> option alias_spec -> bool -> list stt -> Prop :=
| headed_ : forall before ts loops spec u, header_at P hf (map erase (before ++ ts)) loops spec u (map erase ts) ->
    headed (before ++ ts) loops spec u ts.
(** What is left after one more separator. *)
Inductive closed : option alias_spec -> list stt -> list stt -> Prop :=
| closed_none : forall spec ts, (forall t r c, ts = t :: r -> ~ separates c (erase t)) -> closed spec ts ts
| closed_separator : forall sp s c r, separates c (erase s) -> closed (Some sp) (s :: r) r.
Definition braces (item : list stt) : list stt :=
  [SGroup Brace item {| ds_open := call_site; ds_close := call_site; ds_entire := call_site |}].

Inductive attr_error (item : list stt) : list stt -> messages -> Prop :=
| wrong_attr_header : forall ts ms, header_error ts ms -> attr_error item ts ms
| separator_after_loops : forall ts loops u s c r, headed ts (Some loops) None u (s :: r) -> separates c (erase s) ->
    attr_error item ts [says (here call_site (s :: r)) (txt "Trailing separator after loops is not allowed in #[compose_item].")]
| separator_alone : forall ts s c r, headed ts None None false (s :: r) -> separates c (erase s) -> attr_error item ts [left_over s]
| left_in_attr : forall ts loops spec rest t r, headed ts loops spec false rest -> closed spec rest (t :: r) -> attr_error item ts [left_over t]
| no_item : forall ts loops spec rest, headed ts loops spec false rest -> closed spec rest [] ->
    pre_block P (map erase (braces item)) = None -> attr_error item ts (block_error SP (braces item))
(* does not happen with syn: a block takes one group *)
| left_of_item : forall ts loops spec rest block k, headed ts loops spec false rest -> closed spec rest [] ->
    pre_block P (map erase (braces item)) = Some (block, k, false) -> k <> 1 ->
    attr_error item ts [says call_site (txt "unexpected token")].
Inductive attr_unread (item : list stt) : list stt -> Prop :=
| attr_unread_header : forall ts loops spec rest, headed ts loops spec true rest ->
    (forall s r c, rest = s :: r -> separates c (erase s) -> loops = None \/ spec <> None) -> attr_unread item ts
| attr_unread_item : forall ts loops spec rest block k, headed ts loops spec false rest -> closed spec rest [] ->
    pre_block P (map erase (braces item)) = Some (block, k, true) -> attr_unread item ts.

(** ** The macros *)
Definition input_error (s : ssource) (ms : messages) : Prop :=
  match s with
  | SCompose ts | SComposeIdents ts => func_error ts ms
  | SComposeItem attr item => attr_error item attr ms
  end.
Definition input_unread (s : ssource) : Prop :=
  match s with
  | SCompose ts | SComposeIdents ts => func_unread ts
  | SComposeItem attr item => attr_unread item attr
  end.
End Errors.
