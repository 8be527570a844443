(** The text functions of the external crates, for the conformance examples: std's
    hasher (SipHash-1-3); on ASCII text, heck's case conversions, proc_macro2's printing. *)
From Coq Require Import String.
From Verif Require Import Base Token FormatString Concrete.
Open Scope list_scope.

(** ** [std::hash::DefaultHasher::new()] *)
Definition w64 (x : N) : N := N.land x 18446744073709551615.
Definition rotl (b x : N) : N := w64 (N.lor (N.shiftl x b) (N.shiftr x (64 - b))).
Record sip := { v0 : N; v1 : N; v2 : N; v3 : N }.
Definition sip_round (s : sip) : sip :=
  let a0 := w64 (v0 s + v1 s) in
  let a1 := N.lxor (rotl 13 (v1 s)) a0 in
  let b0 := rotl 32 a0 in
  let a2 := w64 (v2 s + v3 s) in
  let a3 := N.lxor (rotl 16 (v3 s)) a2 in
  let c0 := w64 (b0 + a3) in
  let c3 := N.lxor (rotl 21 a3) c0 in
  let c2 := w64 (a2 + a1) in
  let c1 := N.lxor (rotl 17 a1) c2 in
  {| v0 := c0; v1 := c1; v2 := rotl 32 c2; v3 := c3 |}.
Definition sip_word (s : sip) (m : N) : sip :=
  let t := sip_round {| v0 := v0 s; v1 := v1 s; v2 := v2 s; v3 := N.lxor (v3 s) m |} in
  {| v0 := N.lxor (v0 t) m; v1 := v1 t; v2 := v2 t; v3 := v3 t |}.
Fixpoint little_endian (l : list N) : N :=
  match l with [] => 0 | b :: r => (b + 256 * little_endian r)%N end.
Fixpoint sip_words (fuel : nat) (s : sip) (l : list N) (len : N) : sip :=
  match fuel with
  | 0 => s
  | S fuel' =>
      if Nat.ltb (List.length l) 8 then
        sip_word s (N.lor (N.shiftl (N.modulo len 256) 56) (little_endian l))
      else sip_words fuel' (sip_word s (little_endian (firstn 8 l))) (skipn 8 l) len
  end.
Definition sip13 (l : list N) : N :=
  let s := sip_words (S (List.length l))
             {| v0 := 8317987319222330741; v1 := 7237128888997146477; v2 := 7816392313619706465; v3 := 8387220255154660723 |}
             l (N.of_nat (List.length l)) in
  let t := sip_round (sip_round (sip_round {| v0 := v0 s; v1 := v1 s; v2 := N.lxor (v2 s) 255; v3 := v3 s |})) in
  N.lxor (N.lxor (v0 t) (v1 t)) (N.lxor (v2 t) (v3 t)).
Fixpoint bytes_of (k : nat) (x : N) : list N :=
  match k with 0 => [] | S k' => N.modulo x 256 :: bytes_of k' (N.div x 256) end.
(** A [char] in UTF-8. *)
Definition utf8 (c : chr) : list N :=
  (if c <? 128 then [c]
   else if c <? 2048 then [192 + c / 64; 128 + c mod 64]
   else if c <? 65536 then [224 + c / 4096; 128 + c / 64 mod 64; 128 + c mod 64]
   else [240 + c / 262144; 128 + c / 4096 mod 64; 128 + c / 64 mod 64; 128 + c mod 64])%N.
(** [seed.hash(..)] of a [u64] and [text.hash(..)] of a [String], which ends with a byte that
    is never part of a text. *)
Definition hashed_bytes (seed : N) (x : str) : list N := bytes_of 8 seed ++ flat_map utf8 x ++ [255%N].
Definition sip_hash (seed : N) (x : str) : N := sip13 (hashed_bytes seed x).

(** ** heck: the words of a text *)
Inductive mode := Boundary | Lowercase | Uppercase.
Definition mode_eqb (a b : mode) : bool :=
  match a, b with Boundary, Boundary | Lowercase, Lowercase | Uppercase, Uppercase => true | _, _ => false end.
(** [here] is the current word, reversed. *)
Fixpoint words_of (m : mode) (here x : str) : list str :=
  match x with
  | [] => match here with [] => [] | _ => [rev here] end
  | c :: r =>
      if negb (is_alnum c) then
        match here with [] => [] | _ => [rev here] end ++ words_of Boundary [] r
      else
        match r with
        | next :: _ =>
            let m' := if is_lower c then Lowercase else if is_upper c then Uppercase else m in
            if mode_eqb m' Lowercase && is_upper next then rev (c :: here) :: words_of Boundary [] r
            else if mode_eqb m Uppercase && is_upper c && is_lower next then
              (match here with [] => [] | _ => [rev here] end) ++ words_of Boundary [c] r
            else words_of m' (c :: here) r
        | [] => words_of m (c :: here) r
        end
  end.
Definition capitalize (x : str) : str := match x with [] => [] | c :: r => up c :: map low r end.
Definition heck_snake (x : str) : str := join (txt "_") (map (map low) (words_of Boundary [] x)).
Definition heck_pascal (x : str) : str := List.concat (map capitalize (words_of Boundary [] x)).
Definition heck_camel (x : str) : str :=
  match words_of Boundary [] x with [] => [] | w :: r => map low w ++ List.concat (map capitalize r) end.

Example heck_examples :
  map (fun x => (heck_snake (txt x), heck_pascal (txt x), heck_camel (txt x))) ["fooBar"; "HTTPServer2x"; "my_XMLFile"]%string
  = [(txt "foo_bar", txt "FooBar", txt "fooBar"); (txt "http_server2x", txt "HttpServer2x", txt "httpServer2x");
     (txt "my_xml_file", txt "MyXmlFile", txt "myXmlFile")].
Proof. vm_compute. reflexivity. Qed.

(** ** proc_macro2: [Display] of a token stream *)
Fixpoint escape (x : str) : str :=
  match x with
  | [] => []
  | c :: r => (if N.eqb c 34 || N.eqb c 92 then [92%N; c]
               else if N.eqb c 10 then txt "\n" else if N.eqb c 9 then txt "\t" else if N.eqb c 13 then txt "\r" else [c])
              ++ escape r
  end.
Fixpoint display_tt (t : tt) : str :=
  match t with
  | TIdent x => x
  | TPunct c _ => [c]
  | TLit (LStr v []) => [34%N] ++ escape v ++ [34%N]
  | TLit (LStr _ p) => p
  | TLit (LInt _ r) => r
  | TLit (LOther r) => r
  | TGroup d ts =>
      let inner := (fix go (l : list tt) : str :=
                      match l with
                      | [] => []
                      | [x] => display_tt x
                      | x :: r => display_tt x ++ (match x with TPunct _ true => [] | _ => [32%N] end) ++ go r
                      end) ts in
      match d with
      | Paren => txt "(" ++ inner ++ txt ")"
      | Brace => txt "{ " ++ inner ++ (match ts with [] => [] | _ => [32%N] end) ++ txt "}"
      | Bracket => txt "[" ++ inner ++ txt "]"
      | NoDelim => inner
      end
  end.
Definition display (ts : list tt) : str := display_tt (TGroup NoDelim ts).

(** The values of /repo/src/interpreter/tests/funcs/hash.rs. *)
Example sip_examples :
  map (fun x => sip_hash 1 (txt x)) ["FooBar"; "foo"; "let x = 1 ;"]%string
  = [1864179433826574950; 10172337927241793445; 18050448427594546802]%N.
Proof. vm_compute. reflexivity. Qed.
