(** Model of /repo/src/util/cross_product.rs. *)
From Verif Require Import Base.

Section CrossProduct.
Context {A : Type}.

(** cross_product.rs 6-16: [struct CrossProduct<T>]. *)
Record cp := { sources : list (list A); indices : list nat; is_exhausted : bool }.

(** cross_product.rs 98-100: [has_empty_source]. *)
Definition is_empty {B} (v : list B) : bool := match v with [] => true | _ => false end.
Definition has_empty_source (c : cp) : bool := existsb is_empty (sources c).

(** cross_product.rs 34-43: [from_vecs] (and [cross_product], 153-158). *)
Definition from_vecs (srcs : list (list A)) : cp :=
  {| sources := srcs;
     indices := repeat 0 (length srcs);
     is_exhausted := is_empty srcs || existsb is_empty srcs |}.

(** cross_product.rs 46-52: [current_combination]; [zip] stops at the shorter
    list, [source[idx]] out of range is the panic [None]. *)
Fixpoint combination (is : list nat) (srcs : list (list A)) : option (list A) :=
  match is, srcs with
  | i :: is', sr :: srcs' =>
      match nth_error sr i, combination is' srcs' with
      | Some x, Some xs => Some (x :: xs)
      | _, _ => None
      end
  | _, _ => Some []
  end.
Definition current_combination (c : cp) : option (list A) :=
  combination (indices c) (sources c).

(** cross_product.rs 64-73: the loop over [(0..len).rev()], as recursion over the
    reversed index and source lists.  [None] is an out-of-range [sources[i]]. *)
Fixpoint advance_rev (is : list nat) (srcs : list (list A)) : option (bool * list nat) :=
  match is with
  | [] => Some (false, [])
  | i :: is' =>
      match srcs with
      | [] => None
      | sr :: srcs' =>
          if S i <? length sr then Some (true, S i :: is')
          else match advance_rev is' srcs' with
               | Some (b, is'') => Some (b, 0 :: is'')
               | None => None
               end
      end
  end.

(** cross_product.rs 57-77: [advance_indices]; [self.sources[i]] pairs equal
    positions, so the sources are cut to the number of indices before reversal. *)
Definition advance_indices (c : cp) : option (bool * list nat) :=
  match indices c with
  | [] => Some (false, [])
  | _ =>
      match advance_rev (rev (indices c)) (rev (firstn (length (indices c)) (sources c))) with
      | Some (b, is') => Some (b, rev is')
      | None => None
      end
  end.

(** cross_product.rs 116-128: [next].  [inl] is a panic. *)
Definition next (c : cp) : res (option (list A) * cp) :=
  if is_exhausted c then Ok (None, c)
  else
    match current_combination c, advance_indices c with
    | Some result, Some (b, is') =>
        Ok (Some result,
            {| sources := sources c; indices := is';
               is_exhausted := if b then is_exhausted c else true |})
    | _, _ => Panic PIndex
    end.

(** cross_product.rs 80-89, 130-149 on 64-bit [usize]. *)
Definition usize_max : N := (2 ^ 64 - 1)%N.
Definition checked_mul (a b : N) : option N :=
  let p := (a * b)%N in if (p <=? usize_max)%N then Some p else None.
Fixpoint try_fold_mul (acc : N) (l : list N) : option N :=
  match l with
  | [] => Some acc
  | x :: l' => match checked_mul acc x with
               | Some acc' => try_fold_mul acc' l'
               | None => None
               end
  end.

(** cross_product.rs 80-89: [total_combinations]. *)
Definition total_combinations (c : cp) : option N :=
  match sources c with
  | [] => Some 0%N
  | srcs => try_fold_mul 1 (map (fun v => N.of_nat (length v)) srcs)
  end.

(** cross_product.rs 136-142: the loop computing [generated], from the right;
    the products are not wrapped because they never exceed [total]. *)
Fixpoint generated_rev (generated multiplier : N) (is : list nat) (srcs : list (list A)) : N :=
  match is, srcs with
  | i :: is', sr :: srcs' =>
      generated_rev (generated + N.of_nat i * multiplier)
                    (multiplier * N.of_nat (length sr)) is' srcs'
  | _, _ => generated
  end.

(** cross_product.rs 130-149: [size_hint]; [saturating_sub] is [N.sub]. *)
Definition size_hint (c : cp) : N * option N :=
  if is_exhausted c then (0%N, Some 0%N)
  else
    match total_combinations c with
    | Some total =>
        let generated := generated_rev 0 1 (rev (indices c))
                           (rev (firstn (length (indices c)) (sources c))) in
        let remaining := (total - generated)%N in
        (remaining, Some remaining)
    | None => (0%N, None)
    end.

(** cross_product.rs 104-107: [reset]. *)
Definition reset (c : cp) : cp :=
  {| sources := sources c;
     indices := repeat 0 (length (indices c));
     is_exhausted := has_empty_source c |}.

(** [k] calls of [next]: the returned values in order and the final state. *)
Fixpoint nexts (k : nat) (c : cp) : res (list (option (list A)) * cp) :=
  match k with
  | 0 => Ok ([], c)
  | S k' =>
      let! (o, c') := next c in
      let! (os, c'') := nexts k' c' in
      Ok (o :: os, c'')
  end.

(** A [for] loop over the iterator: collects until [None]. *)
Fixpoint collect (fuel : nat) (c : cp) : res (list (list A)) :=
  match fuel with
  | 0 => Panic PFuel
  | S fuel' =>
      let! (o, c') := next c in
      match o with
      | None => Ok []
      | Some x => let! xs := collect fuel' c' in Ok (x :: xs)
      end
  end.
End CrossProduct.
Arguments cp A : clear implicits.
