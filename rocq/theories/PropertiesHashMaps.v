(** C85: the order in which hash maps are iterated (HashMaps). *)
From Coq Require Import String Permutation.
From Verif Require Import Base Token Types Values Ast Env Resolve Eval Item Interpreter Parse Macro HashMaps HashMapsProofs SpecElab Concrete ConcreteParse ConcreteRuns.
Open Scope list_scope.

(** C85: in whatever order the maps are iterated, in every use, round and map another, the output is
    the same. *)
Theorem C85_any_order : forall O P Y order, (forall u r n l, Permutation (order u r n l) l) ->
  forall uses, expand_uses_hashed O P Y order uses = expand_uses O P Y uses.
Proof. exact uses_hashed. Qed.
Print Assumptions C85_any_order.

(** C85: what is substituted for the aliases of one round: the same values, or the same failure. *)
Theorem C85_substitutions : forall O env order spec, (forall n l, Permutation (order n l) l) -> NoDup (item_ids (spec_items spec)) ->
  match make_substitutions O env spec with
  | Ok bs => exists m, make_substitutions_hashed O env order spec = Ok m /\ Permutation m bs /\ NoDup (map fst m) /\ forall x, assoc_str x m = assoc_str x bs
  | Err e => make_substitutions_hashed O env order spec = Err e
  | Panic p => make_substitutions_hashed O env order spec = Panic p
  end.
Proof. exact make_hashed. Qed.
Print Assumptions C85_substitutions.

(** C85: the maps behave like maps: an entry replaces one with its key. *)
Theorem C85_map : forall V k v (m : list (str * V)) x, assoc_str x (map_insert k v m) = if str_eqb x k then Some v else assoc_str x m.
Proof. exact @insert_lookup. Qed.
Print Assumptions C85_map.

(** An order that turns some maps around and rotates others. *)
Example C85_orders : let order (u r n : nat) (l : list (str * value)) := if Nat.even (u + r) then rev l else match l with x :: y => y ++ [x] | [] => [] end in
  (forall u r n l, Permutation (order u r n l) l) /\
  (let text := [i "for"; i "x"; i "in"; bracket [i "p"; p1 ","; i "q"]; i "a"; p1 "="; i "upper"; paren [i "x"]; p1 ",";
                i "b"; p1 "="; i "concat"; paren [i "a"; p1 ","; i "x"]; p1 ","; brace (fn_named "b")] in
   expand_uses_hashed ascii ascii_parsers syntax1 order [use_of (Compose text); use_of (ComposeIdents text)] =
   expand_uses ascii ascii_parsers syntax1 [use_of (Compose text); use_of (ComposeIdents text)] /\
   exists ts, expand_uses ascii ascii_parsers syntax1 [use_of (Compose text)] = [Code ts]).
Proof.
  intros order. split; [|split; [vm_compute; reflexivity|eexists; vm_compute; reflexivity]].
  intros u r n l. unfold order. destruct (Nat.even (u + r)); [apply Permutation_sym, Permutation_rev|].
  destruct l as [|x l]; [constructor|]. apply Permutation_sym, Permutation_cons_append.
Qed.
(** The maps of one round, one after the other turned around: they are different lists. *)
Example C85_differs : let spec := {| spec_items := [(txt "a", EValue 0 (VIdent (txt "x"))); (txt "b", EValue 1 (VIdent (txt "y")))]; is_comma_used := Some true |} in
  make_substitutions_hashed ascii (new_initialized ascii 0 10) (fun _ l => l) spec <> make_substitutions_hashed ascii (new_initialized ascii 0 10) (fun _ l => rev l) spec.
Proof. vm_compute. discriminate. Qed.
(** With two definitions of one name the order would matter; C06 says that they are rejected. *)
Example C85_duplicates : let l := [(txt "a", 1); (txt "a", 2)] in
  assoc_str (txt "a") (map_extend [] l) <> assoc_str (txt "a") (map_extend [] (rev l)).
Proof. vm_compute. discriminate. Qed.
