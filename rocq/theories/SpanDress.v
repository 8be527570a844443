(** Items with spans made from items without and the tokens they were parsed from: each part
    has the spans of the tokens it prints as, if those are the tokens that come next, and
    [call_site] otherwise.  With this, any parsers on tokens without spans are parsers on
    tokens with spans. *)
From Coq Require Import String.
From Verif Require Import Base Token Types Values Item Deprecation Interpreter Parse ConcreteEq SpanTokens SpanItem SpanVisitor SpanDeprecation SpanInstance SpanParse SpanMacro.
Open Scope list_scope.

Definition dress_tokens (ts : list tt) (l : list stt) : list stt * list stt :=
  let k := List.length ts in
  (if tt_eqb (TGroup NoDelim ts) (TGroup NoDelim (map erase (firstn k l))) then firstn k l else map placeless ts, skipn k l).
Definition next_span (l : list stt) : span * list stt := (hd call_site (map span_of l), tl l).
Definition flag_span (b : bool) (l : list stt) : option span * list stt :=
  if b then let (s, r) := next_span l in (Some s, r) else (None, l).
(** The span of a group, what is in it and what follows. *)
Definition enter (l : list stt) : span * list stt * list stt :=
  match l with
  | SGroup _ ts s :: r => (ds_entire s, ts, r)
  | _ => (call_site, [], tl l)
  end.

Section Threaded.
Context {A B : Type} (f : A -> list stt -> B * list stt).
Fixpoint threaded (l : list A) (ts : list stt) : list B * list stt :=
  match l with
  | [] => ([], ts)
  | a :: r =>
      let (b, ts1) := f a ts in
      let (bs, ts2) := threaded r ts1 in
      (b :: bs, ts2)
  end.
(** With a separator after each. *)
Fixpoint separated (l : list A) (ts : list stt) : list B * list span :=
  match l with
  | [] => ([], [])
  | a :: r =>
      let (b, ts1) := f a ts in
      let (s, ts2) := next_span ts1 in
      let (bs, ss) := separated r ts2 in
      (b :: bs, s :: ss)
  end.
End Threaded.
Definition seps_of (trailing : bool) (ss : list span) : separators := {| sep_spans := ss; sep_trailing := trailing |}.
Definition dress_name (x : str) (l : list stt) : (str * span) * list stt := let (s, r) := next_span l in ((x, s), r).

(** An attribute: the pound sign, the exclamation mark, the brackets. *)
Definition dress_attr (a : attr) (l : list stt) : pattr * list stt :=
  let (p, l1) := next_span l in
  let (i, l2) := flag_span (is_inner a) l1 in
  let '(b, inside, l3) := enter l2 in
  ({| pa_pound := p; pa_inner := i; pa_bracket := b; pa_meta := fst (dress_tokens (meta a) inside) |}, l3).
(** The outer attributes are in one stream, the inner ones in another. *)
Fixpoint dress_attrs (l : list attr) (outside inside : list stt) : list pattr :=
  match l with
  | [] => []
  | a :: r =>
      if is_inner a then let (p, inside') := dress_attr a inside in p :: dress_attrs r outside inside'
      else let (p, outside') := dress_attr a outside in p :: dress_attrs r outside' inside
  end.
Definition after_outer (l : list attr) (ts : list stt) : list stt := skipn (List.length (attrs_tokens (outer l))) ts.
Definition after_inner (l : list attr) (ts : list stt) : list stt := skipn (List.length (attrs_tokens (inner l))) ts.
(** Where all attributes are printed in front. *)
Definition dress_all_attrs : list attr -> list stt -> list pattr * list stt := threaded dress_attr.

Definition dress_field (f : field) (l : list stt) : pfield * list stt :=
  let (a, l1) := dress_all_attrs (f_attrs f) l in
  let (v, l2) := dress_tokens (f_vis f) l1 in
  let (x, l3) := match f_ident f with
                 | Some x => let (s, r) := next_span l2 in let (c, r') := next_span r in (Some (x, s, c), r')
                 | None => (None, l2)
                 end in
  let (t, l4) := dress_tokens (f_ty f) l3 in
  ({| pf_attrs := a; pf_vis := v; pf_ident := x; pf_ty := t |}, l4).
Definition dress_fields (f : fields) (l : list stt) : pfields * list stt :=
  match f with
  | FNamed fs t => let '(g, inside, l') := enter l in let (ps, ss) := separated dress_field fs inside in (PNamed ps (seps_of t ss) g, l')
  | FUnnamed fs t => let '(g, inside, l') := enter l in let (ps, ss) := separated dress_field fs inside in (PUnnamed ps (seps_of t ss) g, l')
  | FUnit => (PUnit, l)
  end.
Definition dress_variant (v : variant) (l : list stt) : pvariant * list stt :=
  let (a, l1) := dress_all_attrs (v_attrs v) l in
  let (x, l2) := dress_name (v_ident v) l1 in
  let (f, l3) := dress_fields (v_fields v) l2 in
  let (d, l4) := match v_disc v with
                 | Some e => let (s, r) := next_span l3 in let (e', r') := dress_tokens e r in (Some (s, e'), r')
                 | None => (None, l3)
                 end in
  ({| pv_attrs := a; pv_ident := x; pv_fields := f; pv_disc := d |}, l4).

(** The colon in front of the supertraits, if there are any. *)
Definition colon_span (supers : list (list tt)) (l : list stt) : span * list stt :=
  match supers with [] => (call_site, l) | _ => next_span l end.

Fixpoint dress_item (i : item) (l : list stt) : pitem * list stt :=
  match i with
  | IFn a v s b =>
      let (v', l1) := dress_tokens v (after_outer a l) in
      let (s', l2) := dress_tokens s l1 in
      let '(g, inside, l3) := enter l2 in
      (PFn (dress_attrs a l inside) v' s' g (fst (threaded dress_stmt b (after_inner a inside))), l3)
  | IStruct a v x g f =>
      let (v', l1) := dress_tokens v (after_outer a l) in
      let (k, l2) := next_span l1 in
      let (x', l3) := dress_name x l2 in
      let (gp, l4) := dress_tokens (g_params g) l3 in
      match f with
      | FNamed _ _ | FUnit =>
          let (gw, l5) := dress_tokens (g_where g) l4 in
          let (f', l6) := dress_fields f l5 in
          let (semi, l7) := match f with FUnit => next_span l6 | _ => (call_site, l6) end in
          (PStruct (dress_attrs a l []) v' k x' {| pg_params := gp; pg_where := gw |} f' semi, l7)
      | FUnnamed _ _ =>
          let (f', l5) := dress_fields f l4 in
          let (gw, l6) := dress_tokens (g_where g) l5 in
          let (semi, l7) := next_span l6 in
          (PStruct (dress_attrs a l []) v' k x' {| pg_params := gp; pg_where := gw |} f' semi, l7)
      end
  | IEnum a v x g vs t =>
      let (v', l1) := dress_tokens v (after_outer a l) in
      let (k, l2) := next_span l1 in
      let (x', l3) := dress_name x l2 in
      let (gp, l4) := dress_tokens (g_params g) l3 in
      let (gw, l5) := dress_tokens (g_where g) l4 in
      let '(gr, inside, l6) := enter l5 in
      let (vs', ss) := separated dress_variant vs inside in
      (PEnum (dress_attrs a l []) v' k x' {| pg_params := gp; pg_where := gw |} gr vs' (seps_of t ss), l6)
  | IUnion a v x g fs t =>
      let (v', l1) := dress_tokens v (after_outer a l) in
      let (k, l2) := next_span l1 in
      let (x', l3) := dress_name x l2 in
      let (gp, l4) := dress_tokens (g_params g) l3 in
      let (gw, l5) := dress_tokens (g_where g) l4 in
      let '(gr, inside, l6) := enter l5 in
      let (fs', ss) := separated dress_field fs inside in
      (PUnion (dress_attrs a l []) v' k x' {| pg_params := gp; pg_where := gw |} gr fs' (seps_of t ss), l6)
  | ITrait a v u au x g supers t items =>
      let (v', l1) := dress_tokens v (after_outer a l) in
      let (u', l2) := flag_span u l1 in
      let (au', l3) := flag_span au l2 in
      let (k, l4) := next_span l3 in
      let (x', l5) := dress_name x l4 in
      let (gp, l6) := dress_tokens (g_params g) l5 in
      let (c, l7) := colon_span supers l6 in
      let (supers', ss) := separated dress_tokens supers l7 in
      let (gw, l8) := dress_tokens (g_where g) (skipn (List.length (punctuated (fun b => b) (sym "+") t supers)) l7) in
      let '(gr, inside, l9) := enter l8 in
      (PTrait (dress_attrs a l inside) v' u' au' k x' {| pg_params := gp; pg_where := gw |} c supers' (seps_of t ss) gr
         (fst (threaded dress_trait_item items (after_inner a inside))), l9)
  | IImpl a d u g tr ty items =>
      let (d', l1) := flag_span d (after_outer a l) in
      let (u', l2) := flag_span u l1 in
      let (k, l3) := next_span l2 in
      let (gp, l4) := dress_tokens (g_params g) l3 in
      let (tr', l5) := match tr with
                       | Some (bang, path) =>
                           let (b, r) := flag_span bang l4 in
                           let (p, r') := dress_tokens path r in
                           let (f, r'') := next_span r' in
                           (Some (b, p, f), r'')
                       | None => (None, l4)
                       end in
      let (ty', l6) := dress_tokens ty l5 in
      let (gw, l7) := dress_tokens (g_where g) l6 in
      let '(gr, inside, l8) := enter l7 in
      (PImpl (dress_attrs a l inside) d' u' k {| pg_params := gp; pg_where := gw |} tr' ty' gr
         (fst (threaded dress_impl_item items (after_inner a inside))), l8)
  | IMod a v u x content =>
      let (v', l1) := dress_tokens v (after_outer a l) in
      let (u', l2) := flag_span u l1 in
      let (k, l3) := next_span l2 in
      let (x', l4) := dress_name x l3 in
      match content with
      | Some items =>
          let '(gr, inside, l5) := enter l4 in
          (PMod (dress_attrs a l inside) v' u' k x' gr (Some (fst (threaded dress_item items (after_inner a inside)))), l5)
      | None =>
          let (s, l5) := next_span l4 in
          (PMod (dress_attrs a l []) v' u' k x' s None, l5)
      end
  | IForeign a u abi items =>
      let (u', l1) := flag_span u (after_outer a l) in
      let (k, l2) := next_span l1 in
      let (abi', l3) := match abi with Some x => let (s, r) := next_span l2 in (Some (x, s), r) | None => (None, l2) end in
      let '(gr, inside, l4) := enter l3 in
      (PForeign (dress_attrs a l inside) u' k abi' gr (fst (threaded dress_tokens items (after_inner a inside))), l4)
  | IOther ts => let (ts', r) := dress_tokens ts l in (POther ts', r)
  end
with dress_stmt (s : stmt) (l : list stt) : pstmt * list stt :=
  match s with
  | SItem i => let (i', r) := dress_item i l in (PSItem i', r)
  | SOther ts => let (ts', r) := dress_tokens ts l in (PSOther ts', r)
  end
with dress_trait_item (i : trait_item) (l : list stt) : ptrait_item * list stt :=
  match i with
  | TFn a s b =>
      let (s', l1) := dress_tokens s (after_outer a l) in
      match b with
      | Some b =>
          let '(g, inside, l2) := enter l1 in
          (PTFn (dress_attrs a l inside) s' g (Some (fst (threaded dress_stmt b (after_inner a inside)))), l2)
      | None => let (semi, l2) := next_span l1 in (PTFn (dress_attrs a l []) s' semi None, l2)
      end
  | TOther k ts => let (ts', r) := dress_tokens ts l in (PTOther k ts', r)
  end
with dress_impl_item (i : impl_item) (l : list stt) : pimpl_item * list stt :=
  match i with
  | MFn a v d s b =>
      let (v', l1) := dress_tokens v (after_outer a l) in
      let (d', l2) := flag_span d l1 in
      let (s', l3) := dress_tokens s l2 in
      let '(g, inside, l4) := enter l3 in
      (PMFn (dress_attrs a l inside) v' d' s' g (fst (threaded dress_stmt b (after_inner a inside))), l4)
  | MOther k ts => let (ts', r) := dress_tokens ts l in (PMOther k ts', r)
  end.
Definition dress_block (b : list stmt) (l : list stt) : list pstmt := fst (threaded dress_stmt b l).

Fixpoint dress_tree (t : tree) (l : list stt) : ptree * list stt :=
  match t with
  | DTok t => let (ts, r) := dress_tokens [t] l in (PDTok (hd (placeless t) ts), r)
  | DGroup d c => let '(g, inside, r) := enter l in (PDGroup d g (fst (threaded dress_tree c inside)), r)
  | DNode a b c =>
      let (a', l1) := dress_all_attrs a l in
      let (c', l2) := threaded dress_tree c l1 in
      (PDNode a' b c', l2)
  end.

(** ** Parsers *)
Section Dressed.
Context (P : parsers) (Y : syntax).
Definition left_unread (ts : list stt) (u : bool) : option syn_message :=
  if u then Some (new_message (place call_site ts) (txt "unexpected token")) else None.
Definition dress_lit (r : option (str * str * nat)) (ts : list stt) : option (str * str * span * nat) :=
  option_map (fun '(a, b, k) => (a, b, first_place ts, k)) r.
Definition dress_node (parse : list tt -> option (list tt * nat * bool)) (ts : list stt) : option (list stt * nat * option syn_message) :=
  option_map (fun '(n, k, u) => (fst (dress_tokens n ts), k, left_unread ts u)) (parse (map erase ts)).
Definition dressed_parsers : sparsers := {|
  spre_lit_int := fun ts => dress_lit (pre_lit_int P (map erase ts)) ts;
  spre_lit_str := fun ts => dress_lit (pre_lit_str P (map erase ts)) ts;
  spre_path := dress_node (pre_path P);
  spre_type := dress_node (pre_type P);
  spre_expr := dress_node (pre_expr P);
  spre_block := fun ts => option_map (fun '(b, k, u) => (dress_block b (snd (fst (enter ts))), k, left_unread ts u)) (pre_block P (map erase ts));
  block_error := fun ts => [error_at call_site ts (txt "expected curly braces")];
|}.
Definition dressed_syntax : ssyntax := {|
  snodes := {| sreparse := fun k => same_tokens (reparse Y k);
               sreparse_text := fun _ _ => txt "unexpected token";
               sattrs_text := fun _ => txt "unexpected token" |};
  sas_forest := fun ts => fst (threaded dress_tree (as_forest Y (map erase ts)) ts);
|}.
End Dressed.

(** ** Places in the input: every token, and each delimiter, at a place of its own *)
Fixpoint numbered (t : tt) (n : N) : stt * N :=
  match t with
  | TIdent x => (SIdent x n, N.succ n)
  | TPunct c j => (SPunct c j n, N.succ n)
  | TLit l => (SLit l n, N.succ n)
  | TGroup d ts =>
      let (l, m) := (fix go (ts : list tt) (n : N) : list stt * N :=
                       match ts with
                       | [] => ([], n)
                       | t :: r => let (t', n1) := numbered t n in let (r', n2) := go r n1 in (t' :: r', n2)
                       end) ts (N.succ n) in
      (SGroup d l {| ds_open := n; ds_close := m; ds_entire := N.succ m |}, N.succ (N.succ m))
  end.
Fixpoint numbered_all (ts : list tt) (n : N) : list stt :=
  match ts with
  | [] => []
  | t :: r => let (t', n') := numbered t n in t' :: numbered_all r n'
  end.
