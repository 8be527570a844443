(** The repository's tests of the functions on texts, on the model.  Generated by tools/conformance.py. *)
From Coq Require Import String.
From Verif Require Import Base Token Values Ast Env RustInstance.
Open Scope list_scope.

(** ** src/funcs.rs *)
(** 136 *)
Example normalize_1 : fn_normalize rust (txt "hello_world") = txt "hello_world".
Proof. vm_compute. reflexivity. Qed.
(** 137 *)
Example normalize_2 : fn_normalize rust (txt "$hello_world") = txt "hello_world".
Proof. vm_compute. reflexivity. Qed.
(** 138 *)
Example normalize_3 : fn_normalize rust (txt "_hello_world") = txt "hello_world".
Proof. vm_compute. reflexivity. Qed.
(** 139 *)
Example normalize_4 : fn_normalize rust (txt "hello_world$") = txt "hello_world".
Proof. vm_compute. reflexivity. Qed.
(** 140 *)
Example normalize_5 : fn_normalize rust (txt "hello world") = txt "hello_world".
Proof. vm_compute. reflexivity. Qed.
(** 141 *)
Example normalize_6 : fn_normalize rust (txt "hello__world") = txt "hello__world".
Proof. vm_compute. reflexivity. Qed.
(** 142 *)
Example normalize_7 : fn_normalize rust (txt "hello-world") = txt "hello_world".
Proof. vm_compute. reflexivity. Qed.
(** 143 *)
Example normalize_8 : fn_normalize rust (txt "hello.world") = txt "hello_world".
Proof. vm_compute. reflexivity. Qed.
(** 144 *)
Example normalize_9 : fn_normalize rust (txt "hello...world") = txt "hello_world".
Proof. vm_compute. reflexivity. Qed.
(** 145 *)
Example normalize_10 : fn_normalize rust (txt "hello-_-world") = txt "hello___world".
Proof. vm_compute. reflexivity. Qed.
(** 146 *)
Example normalize_11 : fn_normalize rust (txt "123hello") = txt "_123hello".
Proof. vm_compute. reflexivity. Qed.
(** 147 *)
Example normalize_12 : fn_normalize rust (txt "123") = txt "_123".
Proof. vm_compute. reflexivity. Qed.
(** 148 *)
Example normalize_13 : fn_normalize rust (txt "_123") = txt "_123".
Proof. vm_compute. reflexivity. Qed.
(** 149 *)
Example normalize_14 : fn_normalize rust (txt "#$%^&*") = txt "_".
Proof. vm_compute. reflexivity. Qed.
(** 150 *)
Example normalize_15 : fn_normalize rust (txt "") = txt "_".
Proof. vm_compute. reflexivity. Qed.
(** 151 *)
Example normalize_16 : fn_normalize rust (txt "a__b___c") = txt "a__b___c".
Proof. vm_compute. reflexivity. Qed.
(** 152 *)
Example normalize_17 : fn_normalize rust (txt "a b c") = txt "a_b_c".
Proof. vm_compute. reflexivity. Qed.
(** 153 *)
Example normalize_18 : fn_normalize rust (txt "a.b.c") = txt "a_b_c".
Proof. vm_compute. reflexivity. Qed.
(** 154 *)
Example normalize_19 : fn_normalize rust (txt "a!@#b$%^c") = txt "a_b_c".
Proof. vm_compute. reflexivity. Qed.
(** 155 *)
Example normalize_20 : fn_normalize rust (txt "a_!@#_b") = txt "a___b".
Proof. vm_compute. reflexivity. Qed.
(** 156 *)
Example normalize_21 : fn_normalize rust (txt "&'static str") = txt "static_str".
Proof. vm_compute. reflexivity. Qed.
(** 157 *)
Example normalize_22 : fn_normalize rust (txt "&'static str ") = txt "static_str".
Proof. vm_compute. reflexivity. Qed.
(** 158 *)
Example normalize_23 : fn_normalize rust (txt "Result<T, E>") = txt "Result_T_E".
Proof. vm_compute. reflexivity. Qed.
(** 159 *)
Example normalize_24 : fn_normalize rust (txt "Result< T, E >") = txt "Result_T_E".
Proof. vm_compute. reflexivity. Qed.
(** 166 *)
Example concat_1 : fn_concat (map txt []%string) = txt "".
Proof. vm_compute. reflexivity. Qed.
(** 167 *)
Example concat_2 : fn_concat (map txt ["hello"]%string) = txt "hello".
Proof. vm_compute. reflexivity. Qed.
(** 168 *)
Example concat_3 : fn_concat (map txt ["hello"; "world"]%string) = txt "helloworld".
Proof. vm_compute. reflexivity. Qed.
(** 169 *)
Example concat_4 : fn_concat (map txt ["foo"; "_"; "bar"]%string) = txt "foo_bar".
Proof. vm_compute. reflexivity. Qed.
(** 170 *)
Example concat_5 : fn_concat (map txt ["a"; "b"; "c"; "d"]%string) = txt "abcd".
Proof. vm_compute. reflexivity. Qed.
(** 171 *)
Example concat_6 : fn_concat (map txt [""; "hello"; ""; "world"; ""]%string) = txt "helloworld".
Proof. vm_compute. reflexivity. Qed.
