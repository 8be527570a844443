(** Common vocabulary of the model: characters, strings, outcomes. *)
From Coq Require Export List Arith NArith ZArith Bool Lia.
From Coq Require Import Ascii String.
Export ListNotations.

(** A Rust [char] is a Unicode scalar value; we keep the code point.
    A Rust [String]/[&str] is the list of its [chars()]. *)
Definition chr := N.
Definition str := list chr.

(** ASCII text of the Rust sources, written as a Coq string. *)
Definition txt (x : string) : str := map N_of_ascii (list_ascii_of_string x).

Definition chr_eqb (a b : chr) : bool := N.eqb a b.

Fixpoint str_eqb (a b : str) : bool :=
  match a, b with
  | [], [] => true
  | x :: a', y :: b' => N.eqb x y && str_eqb a' b'
  | _, _ => false
  end.

(** /repo/src/error.rs 9-24: the error variants.  Messages and spans are
    dropped, except for the alias name of the redefinition error and the
    function name of the two call errors, which the properties talk about. *)
Inductive error :=
| TypeError
| EvalError
| RedefinedNameError (name : str)
| SignatureError (fname : str)
| UndefinedFunctionError (fname : str)
| SubstitutionError (alias : str)
| InternalError.

(** The places where the Rust code panics (or would panic). *)
Inductive panic :=
| PIdentNew             (* proc_macro2::Ident::new on text that is no identifier *)
| PLitNew               (* LitInt::new on text that is no literal *)
| PCoercion             (* eval/value.rs: "Unexpected coercion error" *)
| PArgType              (* init_funcs.rs: arg_type_err! *)
| PMetadata             (* resolve/value.rs: neither kind of metadata present *)
| PUnboundVariable      (* eval: alias not in the context *)
| PIndex                (* out-of-range indexing *)
| PUnreachable          (* unreachable!() *)
| PFoldGroup            (* stream_visitor.rs: "Expected a group at index .." *)
| PErrorData            (* substitute_idents.rs: "Error data is always expected .." *)
| PNotInitialized       (* deprecation.rs: "DeprecationService is not initialized" *)
| POverflow             (* arithmetic overflow *)
| PFuel.                (* not in the code: the model ran out of fuel *)

(** [Result<A, Error>] plus panics. *)
Inductive res (A : Type) :=
| Ok (a : A)
| Err (e : error)
| Panic (p : panic).
Arguments Ok {A} a.
Arguments Err {A} e.
Arguments Panic {A} p.

Definition bind {A B} (x : res A) (f : A -> res B) : res B :=
  match x with
  | Ok a => f a
  | Err e => Err e
  | Panic p => Panic p
  end.

Declare Scope res_scope.
Delimit Scope res_scope with res.
Notation "'let!' x ':=' c1 'in' c2" := (bind c1 (fun x => c2))
  (at level 61, x pattern, c1 at next level, right associativity).

Definition is_ok {A} (x : res A) : bool := match x with Ok _ => true | _ => false end.

(** [for x in l { acc.push(f(x)?) }] *)
Section MapM.
Context {A B : Type} (f : A -> res B).
Fixpoint mapM (l : list A) : res (list B) :=
  match l with
  | [] => Ok []
  | x :: l' => let! y := f x in let! ys := mapM l' in Ok (y :: ys)
  end.
End MapM.
