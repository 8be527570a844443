(** C53, C54: the attribute and the block, the old name and the new.  [stops], [braced],
    [unterminated], [with_comma] and [renamed_use] are in SpecForms. *)
From Coq Require Import String.
From Verif Require Import Base Token Types Values Ast Env Item Deprecation Interpreter Parse Macro
  SpecElab SpecParse SpecDeprecation SpecForms FormProofs Concrete ConcreteSpecs ConcreteRuns ConcreteParse ConcreteForms.
Open Scope list_scope.

(** C53: [#[compose_item(header,)] item] is read like [compose!(header, { item })], also with
    a comma behind the block. *)
Theorem C53_reading : forall P has_func n header item after, within P -> braced P ->
  stops P header (TGroup Brace item :: after) -> stops P header [] -> unterminated header ->
  after = [] \/ (exists j, after = [TPunct 44%N j]) ->
  p_ast (parse_func_macro P has_func n (header ++ comma :: TGroup Brace item :: after)) =
  p_ast (parse_attr_macro P has_func n (header ++ [comma]) item).
Proof. exact (fun P hf n s item after Hw => func_attr P hf Hw n s item after). Qed.
Print Assumptions C53_reading.

(** So both yield the same, wherever they stand; and the uses after them yield the same
    unless they come first in the compilation (C29). *)
Theorem C53_outputs : forall O P Y uses1 uses2 seed first_id next_id header item after, within P -> braced P ->
  stops P header (TGroup Brace item :: after) -> stops P header [] -> unterminated header ->
  after = [] \/ (exists j, after = [TPunct 44%N j]) ->
  let u src := {| u_source := src; u_seed := seed; u_first_id := first_id; u_next_id := next_id |} in
  let f := u (Compose (header ++ comma :: TGroup Brace item :: after)) in
  let a := u (ComposeItem (header ++ [comma]) item) in
  nth_error (expand_uses O P Y (uses1 ++ f :: uses2)) (List.length uses1) =
  nth_error (expand_uses O P Y (uses1 ++ a :: uses2)) (List.length uses1) /\
  (uses1 <> [] -> expand_uses O P Y (uses1 ++ f :: uses2) = expand_uses O P Y (uses1 ++ a :: uses2)).
Proof. exact attr_use. Qed.
Print Assumptions C53_outputs.

(** In an attribute the last comma may be left out. *)
Theorem C53_last_comma : forall P has_func n header item, within P -> stops P header [] -> unterminated header ->
  p_ast (parse_attr_macro P has_func n (header ++ [comma]) item) =
  Ok (match p_ast (parse_attr_macro P has_func n header item) with Ok (Some ast) => with_comma ast | _ => None end).
Proof. exact (fun P hf n s item Hw => attr_ended P hf Hw n s item). Qed.
Print Assumptions C53_last_comma.

(** Without definitions there is no comma in front of the block. *)
Theorem C53_without_definitions : forall P has_func n header item after ast, braced P ->
  after = [] \/ (exists t, after = [t] /\ is_separator t = true) -> ast_spec ast = None ->
  (p_ast (parse_func_macro P has_func n (header ++ TGroup Brace item :: after)) = Ok (Some ast) <->
   p_ast (parse_attr_macro P has_func n header item) = Ok (Some ast)).
Proof. exact func_attr_loops. Qed.
Print Assumptions C53_without_definitions.

(** Not every attribute has a block form: [#[compose_item(a = x,,)] fn a() {}] is accepted,
    [compose!(a = x,, { fn a() {} })] is not, with a comma more or less. *)
Theorem C53_any_header_refuted : exists P has_func n header item,
  (exists ast, p_ast (parse_attr_macro P has_func n header item) = Ok (Some ast)) /\
  p_ast (parse_func_macro P has_func n (header ++ [TGroup Brace item])) = Ok None /\
  p_ast (parse_func_macro P has_func n (header ++ [comma; TGroup Brace item])) = Ok None.
Proof.
  exists ascii_parsers, known0, 0%N, [i "a"; p1 "="; i "x"; p1 ","; p1 ","], (fn_named "a").
  split; [eexists|split]; vm_compute; reflexivity.
Qed.
Print Assumptions C53_any_header_refuted.

(** [for x in [p, q] a = concat(x, y), b = z] before [fn a() {}]. *)
Example C53_example :
  let header := [i "for"; i "x"; i "in"; bracket [i "p"; p1 ","; i "q"];
                 i "a"; p1 "="; i "concat"; paren [i "x"; p1 ","; i "y"]; p1 ","; i "b"; p1 "="; i "z"] in
  let item := fn_named "a" in
  within ascii_parsers /\ braced ascii_parsers /\
  stops ascii_parsers header [brace item; p1 ","] /\ stops ascii_parsers header [] /\ unterminated header /\
  expand_uses ascii ascii_parsers syntax0
    [use_of (ComposeItem header item); use_of (ComposeItem (header ++ [comma]) item);
     use_of (Compose (header ++ [comma; brace item])); use_of (Compose (header ++ [comma; brace item; p1 ","]))] =
  let code := Code (fn_named "py" ++ fn_named "qy") in [code; code; code; code].
Proof.
  intros header item. split; [|split; [|split; [|split; [|split; [|vm_compute; reflexivity]]]]].
  - exact ascii_within.
  - exact ascii_braced.
  - intros a s E. unfold header in E. do 12 (destruct a as [|? a]; cbn [app] in E; [subst s; vm_compute; auto|injection E as _ E]).
    destruct a; [cbn [app] in E; subst s; vm_compute; auto|discriminate E].
  - intros a s E. unfold header in E. do 12 (destruct a as [|? a]; cbn [app] in E; [subst s; vm_compute; auto|injection E as _ E]).
    destruct a; [cbn [app] in E; subst s; vm_compute; auto|discriminate E].
  - intros a t E. change header with (removelast header ++ [i "z"]) in E. apply app_inj_tail in E as (_ & <-). reflexivity.
Qed.

(** C54: [compose_idents!] in place of [compose!], or the other way round, changes nothing
    unless the first use in the compilation is concerned; *)
Theorem C54_later_uses : forall O P Y u uses uses', Forall2 renamed_use uses uses' ->
  expand_uses O P Y (u :: uses) = expand_uses O P Y (u :: uses').
Proof. exact renamed_later. Qed.
Print Assumptions C54_later_uses.

(** and then only the prefix of the warnings: every use fails the same way or yields the
    same blocks, with its warnings, after the name of the first use. *)
Theorem C54_all_uses : forall O P Y uses uses' i u, Forall2 renamed_use uses uses' -> nth_error uses i = Some u ->
  (exists o, nth_error (expand_uses O P Y uses) i = Some o /\ nth_error (expand_uses O P Y uses') i = Some o /\ forall ts, o <> Code ts) \/
  (exists blocks, blocks_of O Y (invocation_for O P u) blocks /\ forall l, l = uses \/ l = uses' ->
     nth_error (expand_uses O P Y l) i = Some (Code (concat (map (fun b => forest_tokens (emit
       {| warnings := raised (invocation_for O P u); borrowed := 1; s_prefix := prefix_of (u_source (hd u l)) |}
       (as_forest Y (block_tokens b)))) blocks)))).
Proof. exact renamed_any. Qed.
Print Assumptions C54_all_uses.

(** A use that raises no warning yields the same. *)
Theorem C54_quiet_uses : forall O P Y uses uses' i u, Forall2 renamed_use uses uses' -> nth_error uses i = Some u ->
  raised (invocation_for O P u) = [] -> nth_error (expand_uses O P Y uses) i = nth_error (expand_uses O P Y uses') i.
Proof. exact renamed_quiet. Qed.
Print Assumptions C54_quiet_uses.

(** [a = concat(x, y), { fn a() {} }] and [a = upper(x); { fn a() {} }] under both names. *)
Example C54_example :
  let q := [i "a"; p1 "="; i "concat"; paren [i "x"; p1 ","; i "y"]; p1 ","; brace (fn_named "a")] in
  let w := [i "a"; p1 "="; i "upper"; paren [i "x"]; p1 ";"; brace (fn_named "a")] in
  let old := [use_of (ComposeIdents q); use_of (ComposeIdents w)] in
  let new := [use_of (Compose q); use_of (Compose w)] in
  Forall2 renamed_use old new /\ raised (invocation_for ascii ascii_parsers (use_of (ComposeIdents w))) = [semicolon_warning] /\
  nth_error (expand_uses ascii ascii_parsers syntax1 old) 0 = Some (Code (fn_named "xy")) /\
  nth_error (expand_uses ascii ascii_parsers syntax1 new) 0 = Some (Code (fn_named "xy")) /\
  nth_error (expand_uses ascii ascii_parsers syntax1 old) 1 <> nth_error (expand_uses ascii ascii_parsers syntax1 new) 1.
Proof.
  split; [repeat constructor|]. split; [vm_compute; reflexivity|]. split; [vm_compute; reflexivity|]. split; [vm_compute; reflexivity|].
  vm_compute. discriminate.
Qed.
