(** C99: what can be written in a string.  [escaped], [written], [apart], [says_all] and
    [values_of] are in SpecEscape, [nameable] is in SpecShown. *)
From Coq Require Import String.
From Verif Require Import Base Token Types Values FormatString Item Interpreter Parse Macro ConcreteParse RustLexer RustGrammar RustInstance
  SpecFormat SpecShown SpecEscape EscapeProofs.
Open Scope list_scope.

(** C99: every text can be written, whatever the aliases are. *)
Theorem C99_any_text : forall O lookup s, format_string O lookup (escaped false s) = s.
Proof. exact format_escaped. Qed.
Print Assumptions C99_any_text.

(** C99: also through several macros, one inside the other. *)
Theorem C99_nested : forall O lookups s,
  fold_left (fun t lookup => format_string O lookup t) lookups (Nat.iter (List.length lookups) (escaped false) s) = s.
Proof. exact format_nested. Qed.
Print Assumptions C99_nested.

(** C99: a text with values in it can be written if each value comes first or after something
    that is neither a value nor a percent sign. *)
Theorem C99_written : forall O lookup ps, apart false ps -> (forall a, In a (values_of ps) -> nameable O a /\ lookup a <> None) ->
  format_string O lookup (written false ps) = says_all O lookup ps.
Proof. exact format_written. Qed.
Print Assumptions C99_written.

(** C99: and no other: any string says something else for some values. *)
Theorem C99_unwritable : forall O ps s, ~ apart false ps ->
  exists lookup, (forall a, In a (values_of ps) -> lookup a <> None) /\ format_string O lookup s <> says_all O lookup ps.
Proof. exact unwritable. Qed.
Print Assumptions C99_unwritable.

Example C99_example :
  let ps := [Words (txt "100%, %a% is "); Value_of (txt "a"); Words (txt "%% of "); Value_of (txt "b")] in
  apart false ps /\ (forall a, In a (values_of ps) -> nameable rust a) /\
  written false ps = txt "100%%, %%a%% is %a%%% of %b%" /\
  expand_uses rust rust_parsers rust_syntax
    [use_of (Compose (lex "a = foo, b = bar, { static S: &str = ""100%%, %%a%% is %a%%% of %b%""; },"))] =
    [Code (lex "static S: &str = ""100%, %a% is foo%% of bar"";")] /\
  ~ apart false [Value_of (txt "a"); Value_of (txt "b")] /\ ~ apart false [Words (txt "100%"); Value_of (txt "a")].
Proof.
  intros ps. split; [vm_compute; tauto|]. split; [|split; [reflexivity|split; [vm_compute; reflexivity|split; vm_compute; intuition discriminate]]].
  intros a Ha. cbn in Ha. destruct Ha as [<-|[<-|[]]]; (split; [discriminate|repeat constructor; discriminate]).
Qed.

(** A string in a macro inside of the macro. *)
Example C99_nested_example :
  Nat.iter 2 (escaped false) (txt "100% of %a%") = txt "100%%% of %%%a%%%" /\
  expand_uses rust rust_parsers rust_syntax
    [use_of (Compose (lex "a = foo, { compose!(b = bar, { static S: &str = ""100%%% of %%%a%%%""; }); },"))] =
    [Code (lex "compose!(b = bar, { static S: &str = ""100%% of %%a%%""; });")] /\
  expand_uses rust rust_parsers rust_syntax
    [use_of (Compose (lex "b = bar, { static S: &str = ""100%% of %%a%%""; }"))] =
    [Code (lex "static S: &str = ""100% of %a%"";")].
Proof. split; [reflexivity|]. split; vm_compute; reflexivity. Qed.
