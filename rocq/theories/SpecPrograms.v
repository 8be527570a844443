(** Vocabulary for two-run statements about alias definitions. *)
From Verif Require Import Base Token Types Values Ast Env SpecElab.
From Coq Require Import Permutation.

(** An expression without its node ids. *)
Fixpoint erase (e : expr) : expr :=
  match e with
  | EValue _ v => EValue 0 v
  | ECall _ name args raw => ECall 0 name (map erase args) (option_map (fun p => (0%N, snd p)) raw)
  end.
Definition erase_items (items : list spec_item) : list spec_item :=
  map (fun it => (fst it, erase (snd it))) items.

(** The identifiers an expression mentions outside of raw arguments. *)
Fixpoint mentions (e : expr) : list str :=
  match e with
  | EValue _ (VIdent x) => [x]
  | EValue _ _ => []
  | ECall _ _ args _ => flat_map mentions args
  end.

(** The same function table with other overload ids. *)
Definition renumber_func (rho : N -> N) (f : func) : func :=
  {| f_id := rho (f_id f); f_name := f_name f; f_arg_types := f_arg_types f;
     f_out_type := f_out_type f; f_impl := f_impl f |}.
Definition renumber (rho : N -> N) (env : environment) : environment :=
  {| e_seed := e_seed env;
     e_funcs := map (fun r => (fst r, map (renumber_func rho) (snd r))) (e_funcs env) |}.
Definition order_preserving (rho : N -> N) : Prop :=
  forall a b, (a < b)%N <-> (rho a < rho b)%N.

(** The same function table with the overloads of each name in another order. *)
Definition reordered (env env' : environment) : Prop :=
  e_seed env = e_seed env' /\
  Forall2 (fun r r' => fst r = fst r' /\ Permutation (snd r) (snd r')) (e_funcs env) (e_funcs env').
Definition distinct_ids (env : environment) : Prop :=
  Forall (fun r => NoDup (map f_id (snd r))) (e_funcs env).

(** Two expressions of the same form whose leaves have the same types, in scopes where
    aliases have the types [G] and [G']. *)
Inductive similar (G G' : tenv) : expr -> expr -> Prop :=
| SimValue id id' v v' :
    static_type G v = static_type G' v' -> similar G G' (EValue id v) (EValue id' v')
| SimCall id id' name args args' raw raw' :
    Forall2 (similar G G') args args' ->
    (raw = None <-> raw' = None) ->
    similar G G' (ECall id name args raw) (ECall id' name args' raw').

(** Elaborated terms that differ in the values at the leaves only. *)
Inductive same_plan : texpr -> texpr -> Prop :=
| PlanVal v v' t : same_plan (TEVal v t) (TEVal v' t)
| PlanCall f args args' t :
    Forall2 same_plan args args' -> same_plan (TECall f args t) (TECall f args' t).

(** Definitions of the same names by similar expressions. *)
Inductive similar_items : tenv -> list spec_item -> list spec_item -> Prop :=
| SiNil G : similar_items G [] []
| SiCons G a e e' items items' :
    similar G G e e' -> (forall t, similar_items ((a, t) :: G) items items') ->
    similar_items G ((a, e) :: items) ((a, e') :: items').
