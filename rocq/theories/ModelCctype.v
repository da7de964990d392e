(** Model of /repo/include/cest/cctype.hpp, on top of the string model.  An int
    is a [Z]. *)
From Coq Require Import String Ascii.
From Verif Require Import Mem ModelString.

(** the characters of a string literal, without the terminating null *)
Definition literal (s : String.string) : list N := N_of_ascii <$> list_ascii_of_string s.

(** cest::string str(literal); std::find over it, comparing char with int: true
    if found; then str is destroyed *)
Definition found_in (s : String.string) (ch : Z) : MS bool :=
  str <- s_cstr (cstring (literal s)) ;;
  cs <- s_iterate str ;;
  s_dtor str ;;;
  ret (existsb (λ c, Z.eqb (Z.of_N c) ch) cs).

(** isalnum: 10-15 *)
Definition isalnum (ch : Z) : MS Z :=
  b <- found_in ("0123456789" ++
                 "ABCDEFGHIJKLMNOPQRSTUVWXYZ" ++
                 "abcdefghijklmnopqrstuvwxyz") ch ;;
  ret (if b then 8 else 0)%Z.

(** isupper: 18-21 *)
Definition isupper (ch : Z) : MS Z :=
  b <- found_in "ABCDEFGHIJKLMNOPQRSTUVWXYZ" ch ;; ret (if b then 256 else 0)%Z.
