(** The words of an ASCII text and the spellings made of them, position by position: what
    README's table says of [snake_case], [camel_case] and [pascal_case]
    (/repo/README.md 514-519, /repo/src/funcs.rs 8-30). *)
From Coq Require Import String.
From Verif Require Import Base Token FormatString Concrete.
Open Scope list_scope.

(** The case of the last letter of the run of letters and digits that ends a text, given
    backwards: [Some true] is a capital. *)
Fixpoint last_case (before : str) : option bool :=
  match before with
  | [] => None
  | c :: r => if is_lower c then Some false else if is_upper c then Some true else if is_digit c then last_case r else None
  end.

(** Does a letter or digit begin a word?  At the beginning of a run it does; within a run, a
    capital does after a small letter, and after a capital if a small letter follows. *)
Definition begins_word (before : str) (c : chr) (after : str) : bool :=
  match before with [] => true | b :: _ => negb (is_alnum b) end ||
  is_upper c && match last_case before with
                | None => false
                | Some false => true
                | Some true => match after with d :: _ => is_lower d | [] => false end
                end.

(** [h] and the words of the text [x] after it. *)
Definition put_before (before h x : str) (words : list str) : list str :=
  let apart := match h with [] => words | _ => h :: words end in
  match x with
  | d :: r => if is_alnum d && negb (begins_word before d r)
              then match words with w :: ws => (h ++ w) :: ws | [] => [h] end
              else apart
  | [] => apart
  end.
Fixpoint split_words (before x : str) : list str :=
  match x with
  | [] => []
  | c :: r => let rest := split_words (c :: before) r in if is_alnum c then put_before (c :: before) [c] r rest else rest
  end.
Definition words (x : str) : list str := split_words [] x.

Definition small (w : str) : str := map low w.
Definition capital (w : str) : str := match w with [] => [] | c :: r => up c :: small r end.
Definition snake_words (x : str) : list str := map small (words x).
Definition pascal_words (x : str) : list str := map capital (words x).
Definition camel_words (x : str) : list str := match words x with [] => [] | w :: r => small w :: map capital r end.

(** Words of small letters and digits with an underscore between each two. *)
Definition snake_shaped (x : str) : Prop :=
  exists ws, x = join (txt "_") ws /\ Forall (fun w => w <> [] /\ forallb (fun c => is_lower c || is_digit c) w = true) ws.

(** Words written without separator that can still be told apart: each begins with a capital,
    after a word with a small letter or, if its second letter is small, after one with any letter. *)
Definition apart (u v : str) : bool :=
  match v with
  | c :: r => is_upper c && (existsb is_lower u || existsb is_upper u && match r with d :: _ => is_lower d | [] => false end)
  | [] => false
  end.
Fixpoint all_apart (ws : list str) : bool :=
  match ws with
  | u :: r => match r with v :: _ => apart u v | [] => true end && all_apart r
  | [] => true
  end.

(** The first letter or digit. *)
Definition first_alnum (x : str) : option chr := find is_alnum x.

(** The conversions that make no difference before another. *)
Definition absorbed : list (str * str) :=
  map (fun p : string * string => (txt (fst p), txt (snd p)))
    [ ("snake_case", "snake_case"); ("camel_case", "snake_case"); ("pascal_case", "snake_case");
      ("upper", "upper"); ("upper", "lower"); ("lower", "upper"); ("lower", "lower") ]%string.
