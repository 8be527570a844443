(** The repository's unit tests of util/cross_product.rs, util/token_distance.rs and
    substitution/stream_visitor.rs on the model, and the error test of
    substitution/substitute_idents.rs. *)
From Coq Require Import String.
From Verif Require Import Base Token Types Values Item StreamWalker SubstituteIdents CrossProduct TokenDistance
  Concrete RustLexer RustText RustGrammar RustInstance.
Open Scope list_scope.

(** ** util/cross_product.rs 166-307 *)
Section Product.
Local Open Scope nat_scope.
Definition product {A} (l : list (list A)) : res (list (list A)) := collect 100 (from_vecs l).
Example constructors :
  (product [[1; 2]; [10; 20]; [100]] = Ok [[1; 10; 100]; [1; 20; 100]; [2; 10; 100]; [2; 20; 100]] /\
   product [txt "ab"; txt "xyz"] = Ok [txt "ax"; txt "ay"; txt "az"; txt "bx"; txt "by"; txt "bz"] /\
   product [[1; 2; 3]] = Ok [[1]; [2]; [3]] /\
   product [txt "a"; txt "xy"] = Ok [txt "ax"; txt "ay"] /\
   product [[1; 2]; []; [3; 4]] = Ok [] /\
   product (A := nat) [] = Ok []).
Proof. vm_compute. repeat split. Qed.
Example total :
  map (fun l => total_combinations (from_vecs l)) [[[1; 2; 3]; [4; 5]; [6; 7; 8; 9]]; [[1]; [2]]; [[1; 2]; []]]
  = [Some 24; Some 1; Some 0]%N.
Proof. vm_compute. reflexivity. Qed.
Definition after (k : nat) (c : cp nat) : cp nat := match nexts k c with Ok (_, c') => c' | _ => c end.
Example hints :
  map (fun k => size_hint (after k (from_vecs [[1; 2]; [3; 4; 5]]))) [0; 1; 3] = [(6, Some 6); (5, Some 5); (3, Some 3)]%N.
Proof. vm_compute. reflexivity. Qed.
Example reset_ :
  match CrossProduct.next (reset (after 2 (from_vecs [[1; 2]; [3; 4]]))) with Ok (o, _) => o | _ => None end = Some [1; 3].
Proof. vm_compute. reflexivity. Qed.
Definition count {A} (l : list (list A)) : option nat := match product l with Ok r => Some (List.length r) | _ => None end.
Example counts :
  count [[1; 2]; [10; 20]] = Some 4 /\ count [txt "a"; txt "xyz"] = Some 3 /\ count [[1; 2; 3]; [10]; [100; 200]] = Some 6.
Proof. vm_compute. repeat split. Qed.
Example empty_sources :
  map (fun l => has_empty_source (from_vecs l)) [[]; [[1; 2]]; [[1; 2]; []]] = [false; false; true].
Proof. vm_compute. reflexivity. Qed.

(** ** util/token_distance.rs 45-105: [advance_cursor] is the position of the first entry with
    the given text. *)
Fixpoint first_entry (x : str) (l : list entry) (k : nat) : nat :=
  match l with
  | ELeaf t :: r => if str_eqb (display [t]) x then k else first_entry x r (S k)
  | _ :: r => first_entry x r (S k)
  | [] => k
  end.
Definition position (text target : string) : TokenDistance.cursor :=
  let buf := buffer (lex text) in
  {| ptr := first_entry (txt target) buf 0; scope := List.length buf - 1 |}.
Definition distance (text : string) (swap : bool) (target : string) : res nat :=
  let buf := buffer (lex text) in
  if swap then token_distance buf (position text target) (begin buf)
  else token_distance buf (begin buf) (position text target).
Example token_distance_forward : distance "a + b - c * d" false "c" = Ok 4.
Proof. vm_compute. reflexivity. Qed.
Example token_distance_backward : distance "x * y / z" false "/" = Ok 3 /\ distance "x * y / z" true "/" = Ok 3.
Proof. vm_compute. repeat split. Qed.
(** Here the position lies within the group; its scope is not used. *)
Example token_distance_recursive : distance "a + (b * c) - d" false "c" = Ok 4.
Proof. vm_compute. reflexivity. Qed.
End Product.

(** ** substitution/stream_visitor.rs 409-693 *)
Inductive event := Ident_ (x : str) | Punct_ (c : chr) | Literal_ (l : lit) | Group_ (d : delim) | Enter | Exit | After.
(** [TestVisitor] with its callbacks. *)
Definition test_visitor (on_ident : str -> res action) (on_group : delim -> action) (on_exit : list tt -> action)
  : visitor (list event) := {|
  visit_ident := fun log _ x => let! a := on_ident x in Ok (a, log ++ [Ident_ x]);
  visit_punct := fun log _ c _ => Ok (Continue, log ++ [Punct_ c]);
  visit_literal := fun log _ l => Ok (Continue, log ++ [Literal_ l]);
  visit_group := fun log _ d _ => Ok (on_group d, log ++ [Group_ d]);
  enter_group := fun log _ _ => Ok (Continue, log ++ [Enter]);
  exit_group := fun log _ g => Ok (on_exit g, log ++ [Exit]);
  after_replace := fun log _ => Ok (log ++ [After]);
|}.
Definition go_on {A} (_ : A) : action := Continue.
Definition when_a (a : action) (x : str) : res action := Ok (if str_eqb x (txt "a") then a else Continue).
Definition walk_ (v : visitor (list event)) (text : string) : res (list event * list tt) := walk v 100 [] (lex text).
Definition printed (r : res (list event * list tt)) : option (nat * str) :=
  match r with
  | Ok (log, ts) => Some (List.length (filter (fun e => match e with After => true | _ => false end) log), display ts)
  | _ => None
  end.
Example visit_order_simple_group :
  walk_ (test_visitor (fun _ => Ok Continue) go_on go_on) "(a)"
  = Ok ([Group_ Paren; Enter; Ident_ (txt "a"); Exit; Exit], lex "(a)").
Proof. vm_compute. reflexivity. Qed.
Example replace_ident_with_multiple_tokens :
  printed (walk_ (test_visitor (when_a (Replace (lex "x y"))) go_on go_on) "a") = Some (1, txt "x y").
Proof. vm_compute. reflexivity. Qed.
Example replace_ident_with_empty_stream_triggers_after_replace :
  printed (walk_ (test_visitor (when_a (Replace [])) go_on go_on) "a") = Some (1, []).
Proof. vm_compute. reflexivity. Qed.
Example remove_ident_by_skipping :
  printed (walk_ (test_visitor (when_a Skip) go_on go_on) "a b") = Some (0, txt "b").
Proof. vm_compute. reflexivity. Qed.
Example replace_group_on_visit :
  printed (walk_ (test_visitor (fun _ => Ok Continue) (fun d => match d with Paren => Replace (lex "x + y") | _ => Continue end) go_on) "(a)")
  = Some (1, txt "x + y").
Proof. vm_compute. reflexivity. Qed.
Example skip_group_on_exit_removes_it :
  printed (walk_ (test_visitor (fun _ => Ok Continue) go_on (fun g => if str_eqb (display g) (txt "a") then Skip else Continue)) "(a) c")
  = Some (0, txt "c").
Proof. vm_compute. reflexivity. Qed.
Example error_is_propagated :
  walk_ (test_visitor (fun x => if str_eqb x (txt "boom") then Err InternalError else Ok Continue) go_on go_on) "boom"
  = Err InternalError.
Proof. vm_compute. reflexivity. Qed.

(** ** substitution/substitute_idents.rs 183-212 *)
Example substitution_yields_error_on_invalid_ast_node :
  SubstituteIdents.substitute_idents rust (table [("T", VLitInt (txt "123") (txt "123"))]%string) (rust_reparse KItem)
    (lex "fn f() -> T { 0 }")
  = Err (SubstitutionError (txt "T")).
Proof. vm_compute. reflexivity. Qed.
