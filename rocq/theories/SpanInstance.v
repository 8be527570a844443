(** Parsers on tokens with spans made from any parsers on tokens without: what is parsed keeps
    its spans if it is printed with the same tokens, and otherwise has none of its own. *)
From Coq Require Import String.
From Verif Require Import Base Token Types Values Concrete ConcreteEq SpecSpans SpanTokens SpanWalker SpanValues SpanEval SpecSpanEval.

(** Tokens made at [call_site]. *)
Fixpoint placeless (t : tt) : stt :=
  match t with
  | TIdent x => SIdent x call_site
  | TPunct c j => SPunct c j call_site
  | TLit l => SLit l call_site
  | TGroup d ts => SGroup d (map placeless ts) (single call_site)
  end.
Lemma erase_placeless : forall t, erase (placeless t) = t.
Proof.
  fix IH 1. intros [x|c j|l|d ts]; try reflexivity. cbn. f_equal. induction ts as [|t ts IHts]; [reflexivity|]. cbn. f_equal; [apply IH|exact IHts].
Qed.
Lemma spans_placeless : forall t s, In s (spans1 (placeless t)) -> s = call_site.
Proof.
  fix IH 1. intros [x|c j|l|d ts] s; cbn; try (intros [H|[]]; congruence).
  intros [H|[H|[H|H]]]; try congruence. apply in_flat_map in H as (t & H1 & H2). induction ts as [|u ts IHts]; [contradiction|].
  cbn in H1. destruct H1 as [<-|H1]; [eapply IH; exact H2|exact (IHts H1)].
Qed.

Section Dressed.
Context (O : oracles).
Definition first_place (ts : list stt) : span := match ts with [] => call_site | t :: _ => span_of t end.
Definition at_first {A} (parse : list tt -> option A) (ts : list stt) : option (A * span) :=
  option_map (fun a => (a, first_place ts)) (parse (map erase ts)).
Definition same_tokens (parse : list tt -> option (list tt)) (ts : list stt) : option (list stt) :=
  option_map (fun r => if tt_eqb (TGroup NoDelim r) (TGroup NoDelim (map erase ts)) then ts else map placeless r)
    (parse (map erase ts)).
Definition dressed : soracles := {|
  sparse_ident := at_first (parse_ident O);
  sparse_path := same_tokens (parse_path O);
  sparse_type := same_tokens (parse_type O);
  sparse_expr := same_tokens (parse_expr O);
  sparse_lit_str := at_first (parse_lit_str O);
  sparse_lit_int := at_first (parse_lit_int O);
  join := fun a b => if N.eqb a b then Some a else None;
  syn_error_at := fun _ ts => first_place ts;
  syn_error_text := fun _ _ => txt "unexpected token";
  str_error_text := fun _ => txt "expected identifier";
|}.

Lemma dressed_spanless : spanless O dressed.
Proof.
  assert (H1 : forall (A : Type) (p : list tt -> option A) ts, option_map fst (at_first p ts) = p (map erase ts))
    by (intros A p ts; unfold at_first; destruct (p _); reflexivity).
  assert (H2 : forall p ts, option_map (map erase) (same_tokens p ts) = p (map erase ts)).
  { intros p ts. unfold same_tokens. destruct (p _) as [r|]; [|reflexivity]. cbn [option_map]. f_equal.
    destruct (tt_eqb _ _) eqn:E; [apply tt_eqb_eq in E; injection E as E; symmetry; exact E|].
    rewrite map_map. rewrite (map_ext _ (fun x => x) erase_placeless). apply map_id. }
  split; intros ts; cbn; auto.
Qed.
(** No name and no literal is empty. *)
Definition nonempty : Prop := parse_ident O [] = None /\ parse_lit_str O [] = None /\ parse_lit_int O [] = None.
Lemma dressed_inherited : nonempty -> inherited dressed.
Proof.
  intros (N1 & N2 & N3).
  assert (H1 : forall (A : Type) (p : list tt -> option A) ts a s, p [] = None -> at_first p ts = Some (a, s) -> In s (spans ts)).
  { intros A p ts a s Hp. unfold at_first. destruct ts as [|t ts]; [cbn; rewrite Hp; discriminate|].
    destruct (p (map erase (t :: ts))) as [a0|]; [|intros H; discriminate H]. cbn. intros H. injection H as _ <-. unfold spans. cbn. apply in_or_app. left. destruct t; cbn; auto. }
  assert (H2 : forall p ts r, same_tokens p ts = Some r -> incl (spans r) (call_site :: spans ts)).
  { intros p ts r. unfold same_tokens. destruct (p _) as [q|]; [|discriminate]. cbn [option_map]. intros H. injection H as <-.
    match goal with |- context [if ?b then _ else _] => destruct b end; [apply incl_tl, incl_refl|]. intros s Hs. left. apply in_flat_map in Hs as (t & Ht & Hs). apply in_map_iff in Ht as (u & <- & _).
    symmetry. eapply spans_placeless; exact Hs. }
  split; intros *; cbn; eauto.
  destruct ts as [|t' ts]; [left; reflexivity|]. right. cbn. apply in_or_app. left. destruct t'; cbn; auto.
Qed.
End Dressed.

Lemma ascii_inherited : inherited (dressed Concrete.ascii).
Proof. apply dressed_inherited. repeat split. Qed.

(** Shorthands for examples: tokens and values at a place. *)
Definition si (x : String.string) (s : span) : stt := SIdent (txt x) s.
Definition sp (x : String.string) (s : span) : stt := SPunct (hd 0%N (txt x)) false s.
Definition sgroup (d : delim) (ts : list stt) (a b c : span) : stt := SGroup d ts {| ds_open := a; ds_close := b; ds_entire := c |}.
Definition sid (n : N) (x : String.string) (s : span) : sexpr := SEValue n (SVIdent (txt x) s).
Definition sstr (n : N) (x : String.string) (s : span) : sexpr := SEValue n (SVLitStr (txt x) [] s).
Definition sint (n : N) (x : String.string) (s : span) : sexpr := SEValue n (SVLitInt (txt x) (txt x) s).
Definition scall (n : N) (f : String.string) (s : span) (args : list sexpr) : sexpr := SECall n (txt f) s args None.
Arguments si _%string_scope _%N_scope.
Arguments sp _%string_scope _%N_scope.
Arguments sgroup _ _ _%N_scope _%N_scope _%N_scope.
Arguments sid _%N_scope _%string_scope _%N_scope.
Arguments sstr _%N_scope _%string_scope _%N_scope.
Arguments sint _%N_scope _%string_scope _%N_scope.
Arguments scall _%N_scope _%string_scope _%N_scope _.
