(** C58, C79: output. *)
From Verif Require Import ModelOstream SpecOstream OstreamProofs OstreamExact.

(** For every sequence of statements [os << x1 << x2 ...] on any streams, every
    standard stream receives exactly what the standard would insert, in order. *)
Theorem C58_output_partial g p tr :
  Forall (λ s, Forall plain s.2) p → statements g p false tr = (tt, tr ++ std_events g p).
Proof. exact (statements_run g p tr). Qed.
Print Assumptions C58_output_partial.

Theorem C58_output_per_stream_partial g p tr d :
  Forall (λ s, Forall plain s.2) p →
  shown d (statements g p false tr).2 =
    shown d tr ++ (s ← p; if decide (dev_of g s.1 = Some d) then std_event <$> s.2 else []).
Proof. exact (statements_shown g p tr d). Qed.
Print Assumptions C58_output_per_stream_partial.

(** In a constant evaluation nothing is written, whatever is inserted. *)
Theorem C58_output_constant g p tr : statements g p true tr = (tt, tr).
Proof. exact (statements_const g p tr). Qed.
Print Assumptions C58_output_constant.

(** A stream that is none of the three writes nothing. *)
Theorem C58_output_other g os xs ce tr : dev_of g os = None → chain g os xs ce tr = (os, tr).
Proof. exact (other_silent g os xs ce tr). Qed.
Print Assumptions C58_output_other.

(** << returns the stream it was applied to. *)
Theorem C58_output_returns g os x ce tr : (insert g os x ce tr).1 = os.
Proof. exact (insert_os g os x ce tr). Qed.
Print Assumptions C58_output_returns.

Local Definition g0 := Globals 1%positive 2%positive 3%positive.
Example C58_output_ex :
  statements g0 [(1%positive, [Int 5; Char 32; Endl]); (2%positive, [CStr [111]]); (1%positive, [String [107]])] false [] =
  (tt, [(StdOut, EInt 5); (StdOut, EChar 32); (StdOut, EEndl); (StdErr, EText [111]); (StdOut, EText [107])]).
Proof. reflexivity. Qed.

(** hex is not passed on to the standard stream: 255 is inserted in decimal *)
Theorem C58_output_hex_refuted :
  statements g0 [(1%positive, [Hex; Int 255])] false [] = (tt, [(StdOut, EInt 255)]) ∧
  std_events g0 [(1%positive, [Hex; Int 255])] = [(StdOut, EBase 16); (StdOut, EInt 255)].
Proof. exact (conj eq_refl eq_refl). Qed.
Print Assumptions C58_output_hex_refuted.

(** a string is written as a C string: it stops at the first null character *)
Theorem C58_output_string_refuted :
  statements g0 [(1%positive, [String [97; 0; 98]])] false [] = (tt, [(StdOut, EText [97])]) ∧
  std_events g0 [(1%positive, [String [97; 0; 98]])] = [(StdOut, EText [97; 0; 98])].
Proof. exact (conj eq_refl eq_refl). Qed.
Print Assumptions C58_output_string_refuted.

(** printf and fprintf of text without conversions and nulls *)
Theorem C79_printf_partial format tr :
  0%Z ∉ format → 37%Z ∉ format →
  std_format format = Some format ∧
  printf0 format false tr = (Z.of_nat (length format), tr ++ [(StdOut, EText format)]).
Proof. exact (printf0_run format tr). Qed.
Print Assumptions C79_printf_partial.

(** fprintf with arguments, if the formatted text has no null *)
Theorem C79_fprintf_partial g os out tr :
  0%Z ∉ out → fprintf g os out false tr = (Z.of_nat (length out), tr ++ printed g os (EText out)).
Proof. exact (fprintf_run g os out tr). Qed.
Print Assumptions C79_fprintf_partial.

(** in a constant evaluation they do nothing and return 0 *)
Theorem C79_printf_constant g os t tr :
  printf0 t true tr = (0%Z, tr) ∧ printf t true tr = (0%Z, tr) ∧
  fprintf0 g os t true tr = (0%Z, tr) ∧ fprintf g os t true tr = (0%Z, tr).
Proof. exact (conj eq_refl (conj eq_refl (conj eq_refl eq_refl))). Qed.
Print Assumptions C79_printf_constant.

(** printf("%%") writes two characters instead of one *)
Theorem C79_printf_percent_refuted :
  std_format [37; 37]%Z = Some [37]%Z ∧ printf0 [37; 37]%Z false [] = (2%Z, [(StdOut, EText [37; 37]%Z)]).
Proof. exact (conj eq_refl eq_refl). Qed.
Print Assumptions C79_printf_percent_refuted.

(** fprintf(stream, format) always returns 0 *)
Theorem C79_fprintf_count_refuted g os format tr ce : (fprintf0 g os format ce tr).1 = 0%Z.
Proof. exact (fprintf0_zero g os format tr ce). Qed.
Print Assumptions C79_fprintf_count_refuted.

(** fprintf with arguments stops at a null in the output, but counts it all *)
Theorem C79_fprintf_null_refuted :
  fprintf g0 2%positive [97; 0; 98]%Z false [] = (3%Z, [(StdErr, EText [97]%Z)]).
Proof. exact eq_refl. Qed.
Print Assumptions C79_fprintf_null_refuted.

(** ** C92: what every program writes, and exactly which programs write what the
    standard says *)
Theorem C92_output_exact g p tr : statements g p false tr = (tt, tr ++ std_events g (cut_program p)).
Proof. exact (statements_cut g p tr). Qed.
Print Assumptions C92_output_exact.
Theorem C92_output_right g p tr :
  statements g p false tr = (tt, tr ++ std_events g p) ↔ Forall (λ s, dev_of g s.1 ≠ None → Forall plain s.2) p.
Proof. exact (statements_right g p tr). Qed.
Print Assumptions C92_output_right.
Example C92_example :
  std_events g0 (cut_program [(1%positive, [Hex; Int 5; String [97; 0; 98]]); (9%positive, [Hex])]) = [(StdOut, EInt 5); (StdOut, EText [97])] ∧
  statements g0 [(9%positive, [Hex])] false [] = (tt, [] ++ std_events g0 [(9%positive, [Hex])]).
Proof. vm_compute. done. Qed.

(** ** C93: what every call of printf and fprintf writes and returns; with a format
    alone printf is right exactly if there is no percent sign. *)
Theorem C93_printf_exact format tr :
  printf0 format false tr = (Z.of_nat (length (c_str format)), tr ++ [(StdOut, EText (c_str format))]) ∧
  (std_format (c_str format) = Some (c_str format) ↔ 37%Z ∉ c_str format).
Proof. exact (printf0_exact format tr). Qed.
Print Assumptions C93_printf_exact.
Theorem C93_fprintf_exact g os out tr :
  fprintf g os out false tr = (Z.of_nat (length out), tr ++ printed g os (EText (c_str out))) ∧
  fprintf0 g os out false tr = (0%Z, tr ++ printed g os (EText (c_str out))).
Proof. exact (fprintf_exact g os out tr). Qed.
Print Assumptions C93_fprintf_exact.
Example C93_example : 37%Z ∉ c_str [104; 105; 0; 37]%Z ∧ printf0 [104; 105; 0; 37]%Z false [] = (2%Z, [(StdOut, EText [104; 105]%Z)]) ∧
  fprintf g0 1%positive [104; 105]%Z false [] = (2%Z, [(StdOut, EText [104; 105]%Z)]).
Proof. split; [by apply (bool_decide_unpack (37%Z ∉ c_str [104; 105; 0; 37]%Z))|done]. Qed.
