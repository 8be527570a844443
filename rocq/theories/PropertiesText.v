(** C15-C20: normalize and string placeholders. *)
From Coq Require Import String.
From Verif Require Import Base Token Types Values Normalize SpecNormalize NormalizeProofs
  FormatString SpecFormat FormatProofs Concrete TextFacts.
Open Scope list_scope.

(** The laws of [char::is_alphanumeric]/[is_numeric] used below, met by the ASCII instance. *)
Example laws_hold :
  is_alnum underscore = false /\ is_digit underscore = false /\
  forall c, is_digit c = true -> is_alnum c = true.
Proof.
  split; [reflexivity|]. split; [reflexivity|]. intros c H.
  exact (eq_trans (f_equal (orb (is_alpha c)) H) (orb_true_r (is_alpha c))).
Qed.

(** normalize, completely: drop leading separators, drop one trailing separator and the
    run of foreign characters before it, collapse runs, put an underscore before a digit. *)
Theorem C15_normalize_is_normal_form : forall alnum numeric : chr -> bool,
  alnum underscore = false -> numeric underscore = false ->
  forall s, normalize alnum numeric s = normal_form alnum numeric underscore s.
Proof. exact normalize_spec. Qed.
Print Assumptions C15_normalize_is_normal_form.

Theorem C15_normalize_not_empty : forall alnum numeric : chr -> bool,
  alnum underscore = false -> numeric underscore = false ->
  forall s, normalize alnum numeric s <> [].
Proof. exact normalize_nonempty. Qed.
Print Assumptions C15_normalize_not_empty.

Theorem C15_normalize_alphabet : forall alnum numeric : chr -> bool,
  alnum underscore = false -> numeric underscore = false ->
  forall s, Forall (fun c => alnum c = true \/ c = underscore) (normalize alnum numeric s).
Proof. exact normalize_chars. Qed.
Print Assumptions C15_normalize_alphabet.

Theorem C15_normalize_no_leading_digit : forall alnum numeric : chr -> bool,
  alnum underscore = false -> numeric underscore = false ->
  forall s, match normalize alnum numeric s with [] => False | c :: _ => numeric c = false end.
Proof. exact normalize_first_not_digit. Qed.
Print Assumptions C15_normalize_no_leading_digit.

(** Exactly when the result ends with an underscore, for input with alphanumeric content
    ([c] is the first, [mid] reaches to the last alphanumeric character). *)
Theorem C15_normalize_trailing_underscore : forall alnum numeric : chr -> bool,
  alnum underscore = false -> numeric underscore = false ->
  forall lead c mid seps,
  alnum c = true ->
  Forall (fun c => alnum c = false) seps ->
  (mid = [] \/ exists m z, mid = m ++ [z] /\ alnum z = true) ->
  Forall (fun c => alnum c = false) lead ->
  last (normalize alnum numeric (lead ++ c :: mid ++ seps)) 0%N = underscore
  <-> In underscore (removelast seps).
Proof. exact normalize_trailing. Qed.
Print Assumptions C15_normalize_trailing_underscore.

Example C15_example :
  normalize is_alnum is_digit (txt "&'static 1st  str__!") = txt "static_1st_str__" /\
  normalize is_alnum is_digit (txt " 9to5 ") = txt "_9to5" /\
  normalize is_alnum is_digit (txt "$$$") = txt "_".
Proof. repeat split; vm_compute; reflexivity. Qed.

(** C16 *)
Theorem C16_normalize_keeps_content : forall alnum numeric : chr -> bool,
  alnum underscore = false -> numeric underscore = false ->
  forall s, filter alnum (normalize alnum numeric s) = filter alnum s.
Proof. exact normalize_content. Qed.
Print Assumptions C16_normalize_keeps_content.

Theorem C16_normalize_keeps_identifiers : forall alnum numeric : chr -> bool,
  forall s c z m,
  s = c :: m \/ s = [c] -> Forall (fun c => keep alnum underscore c = true) s ->
  alnum c = true -> numeric c = false -> last s 0%N = z -> alnum z = true ->
  alnum underscore = false -> numeric underscore = false ->
  normalize alnum numeric s = s.
Proof.
  intros al nu s c z m H1 H2 H3 H4 H5 H6 H7 H8; exact (normalize_clean al nu H7 H8 s c z m H1 H2 H3 H4 H5 H6).
Qed.
Print Assumptions C16_normalize_keeps_identifiers.

Example C16_example : normalize is_alnum is_digit (txt "foo__bar_9") = txt "foo__bar_9".
Proof. vm_compute. reflexivity. Qed.

(** C17: idempotence fails, a trailing underscore can survive. *)
Theorem C17_normalize_idempotent_refuted :
  exists s, normalize is_alnum is_digit (normalize is_alnum is_digit s) <> normalize is_alnum is_digit s
    /\ last (normalize is_alnum is_digit s) 0%N = underscore /\ normalize is_alnum is_digit s <> [underscore].
Proof. exact normalize_not_idempotent. Qed.
Print Assumptions C17_normalize_idempotent_refuted.

(** It holds exactly where no trailing underscore survived. *)
Theorem C17_idempotent_iff_no_trailing_underscore : forall alnum numeric : chr -> bool,
  alnum underscore = false -> numeric underscore = false ->
  forall s, let n := normalize alnum numeric s in
  normalize alnum numeric n = n <-> (n = [underscore] \/ last n 0%N <> underscore).
Proof. exact normalize_idem_iff. Qed.
Print Assumptions C17_idempotent_iff_no_trailing_underscore.

(** The leading half holds in full.  Missing for C17: the trailing half. *)
Theorem C17_no_leading_underscore_partial : forall alnum numeric : chr -> bool,
  alnum underscore = false -> numeric underscore = false ->
  forall s r, normalize alnum numeric s = underscore :: r ->
  r = [] \/ exists d r', r = d :: r' /\ numeric d = true.
Proof. exact normalize_leading. Qed.
Print Assumptions C17_no_leading_underscore_partial.

Example C17_example :
  normalize is_alnum is_digit (txt "__9a$") = txt "_9a" /\
  normalize is_alnum is_digit (txt "a$_$b$_$") = txt "a___b__".
Proof. split; vm_compute; reflexivity. Qed.

(** C18 *)
Theorem C18_no_percent_unchanged : forall O lookup s,
  ~ In percent s -> format_string O lookup s = s.
Proof. exact format_no_percent. Qed.
Print Assumptions C18_no_percent_unchanged.

Theorem C18_one_percent_unchanged : forall O lookup s t,
  ~ In percent s -> ~ In percent t ->
  format_string O lookup (s ++ percent :: t) = s ++ percent :: t.
Proof. exact format_one_percent. Qed.
Print Assumptions C18_one_percent_unchanged.

Theorem C18_unterminated_placeholder_kept : forall O lookup ps t,
  wf percent ps (Some t) ->
  format_string O lookup (render percent ps (Some t)) =
  format_string O lookup (render percent ps None) ++ percent :: t.
Proof. exact format_unterminated. Qed.
Print Assumptions C18_unterminated_placeholder_kept.

Example C18_example :
  format_string ascii two (txt "100% sure, a b") = txt "100% sure, a b" /\
  format_string ascii two (txt "x %a% 100% b") = txt "x foo 100% b".
Proof. split; vm_compute; reflexivity. Qed.

(** C19: the full meaning of a format string, and every string has such a reading. *)
Theorem C19_format_is_meaning : forall O lookup ps tail,
  wf percent ps tail ->
  format_string O lookup (render percent ps tail) =
  meaning percent (is_whitespace O) (fun x => option_map (shown O) (lookup x)) ps tail.
Proof. exact format_meaning. Qed.
Print Assumptions C19_format_is_meaning.

Theorem C19_every_string_has_a_reading : forall s,
  exists ps tail, s = render percent ps tail /\ wf percent ps tail.
Proof. exact every_string_has_pieces. Qed.
Print Assumptions C19_every_string_has_a_reading.

Example C19_example :
  wf percent [PText (txt "x "); PHole (txt " a ") 0; PText (txt "-"); PHole (txt "zz") 0; PText (txt "!")] None /\
  format_string ascii two (txt "x % a %-%zz%!") = txt "x foo-%zz%!".
Proof.
  split; [|vm_compute; reflexivity].
  split; [|split]; [|cbn; tauto|exact I].
  repeat apply Forall_cons; try apply Forall_nil; (split; [discriminate|]);
    unfold no_percent; vm_compute; intuition discriminate.
Qed.

(** C20: false for longer runs and for adjacent placeholders. *)
Theorem C20_percent_escape_refuted : exists lookup n a b v w,
  format_string ascii lookup (repeat percent (2 * n)) <> repeat percent n /\
  lookup a = Some v /\ lookup b = Some w /\
  format_string ascii lookup ([percent] ++ a ++ [percent] ++ [percent] ++ b ++ [percent]) <> shown ascii v ++ shown ascii w /\
  format_string ascii lookup (txt "%%%%") = txt "%%%" /\ format_string ascii lookup (txt "%a%%b%") = txt "foo%b%".
Proof. exact percent_escape_wrong. Qed.
Print Assumptions C20_percent_escape_refuted.

(** What does hold: an isolated run of [n + 2] signs gives [n + 1], in particular two
    give one, wherever it stands.  Missing: runs longer than two, runs that touch a
    placeholder. *)
Theorem C20_isolated_run_partial : forall O lookup before n after tail,
  wf percent (before ++ PPercents n :: after) tail ->
  format_string O lookup (render percent (before ++ PPercents n :: after) tail) =
  meaning percent (is_whitespace O) (fun x => option_map (shown O) (lookup x)) before None
  ++ repeat percent (S n)
  ++ meaning percent (is_whitespace O) (fun x => option_map (shown O) (lookup x)) after tail.
Proof. exact format_isolated_run. Qed.
Print Assumptions C20_isolated_run_partial.

Example C20_example : format_string ascii two (txt "%a% is 100%% b") = txt "foo is 100% b".
Proof. vm_compute. reflexivity. Qed.
