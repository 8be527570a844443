(** Specifications for C77: reading the bytes that are hashed. *)
From Verif Require Import Base Token.

(** A text in UTF-8, with the byte 255 at the end. *)
Definition continued (b : N) : option N := if ((128 <=? b) && (b <? 192))%N%bool then Some (b - 128)%N else None.
Fixpoint decoded_text (l : list N) : option str :=
  match l with
  | [] => None
  | b :: r =>
      if (b <? 128)%N then option_map (cons b) (decoded_text r)
      else if (b <? 192)%N then None
      else if (b <? 224)%N then
        match r with
        | b2 :: r2 =>
            match continued b2, decoded_text r2 with
            | Some c2, Some x => Some (((b - 192) * 64 + c2)%N :: x)
            | _, _ => None
            end
        | _ => None
        end
      else if (b <? 240)%N then
        match r with
        | b2 :: b3 :: r3 =>
            match continued b2, continued b3, decoded_text r3 with
            | Some c2, Some c3, Some x => Some (((b - 224) * 4096 + c2 * 64 + c3)%N :: x)
            | _, _, _ => None
            end
        | _ => None
        end
      else if (b <? 248)%N then
        match r with
        | b2 :: b3 :: b4 :: r4 =>
            match continued b2, continued b3, continued b4, decoded_text r4 with
            | Some c2, Some c3, Some c4, Some x => Some (((b - 240) * 262144 + c2 * 4096 + c3 * 64 + c4)%N :: x)
            | _, _, _, _ => None
            end
        | _ => None
        end
      else if (b =? 255)%N then match r with [] => Some [] | _ => None end
      else None
  end.

(** Eight bytes, the least significant one first, and a text. *)
Definition decoded (l : list N) : option (N * str) :=
  match l with
  | b0 :: b1 :: b2 :: b3 :: b4 :: b5 :: b6 :: b7 :: r =>
      option_map (fun x => ((b0 + 2 ^ 8 * b1 + 2 ^ 16 * b2 + 2 ^ 24 * b3 + 2 ^ 32 * b4 + 2 ^ 40 * b5 + 2 ^ 48 * b6 + 2 ^ 56 * b7)%N, x)) (decoded_text r)
  | _ => None
  end.

(** Code points. *)
Definition is_char (c : chr) : Prop := (c < 1114112)%N.
