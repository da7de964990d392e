# Formal model of pkeir/cest in Rocq/Coq

cest is a header-only C++20 library of constexpr re-implementations of parts of
the standard library.  Source read as text from `/repo` (never built or run).

## 1. Approach

Each class is transcribed method by method into a small computable Gallina
program over an explicit memory (`Mem.v`):

* `mem C`: a finite map from addresses to cells (one cell type `C` per
  component), a fresh-address counter (addresses are never reused, so every
  use after free is visible), an oracle `aorc` deciding for each allocation
  whether it fails (`std::bad_alloc`) and an oracle `corc` deciding for each
  element copy construction whether it throws.
* Results are `Ok a m | Exn e m | UB | Div`.  `UB` is any undefined behaviour
  the model tracks: null/dangling dereference, access outside a block, reading or
  destroying raw storage, constructing over a live object, deallocating a block
  of live objects, deallocating with the wrong size.
  `Div` is a loop that exceeded its fuel; the fuel of every loop is fixed by the
  heap size (or an explicit bound) and theorems exclude `Div`.
* Objects (vector headers, list sentinels, …) are cells too, and methods take
  `this` by address, so aliasing (self-assignment, `swap(x,x)`) is faithful.

Proofs use a linear separation logic (`SL.v`) built in this development: heap
predicates with an Iris BI instance (for the proof mode only; no Iris axioms), a
weakest precondition that is sound for all memories and all oracles.  Linearity
gives leak freedom.  Per-operation specifications are combined into history
theorems: for any number of objects and any finite list of operations, the model
agrees with a small functional specification (lists / sorted sets of
mathematical values) and nothing is left allocated at the end.

`Model*.v` files contain only definitions (each citing file and lines in
`/repo`), `Spec*.v` the independent specifications, `Proofs*.v` lemmas and
`Prop*.v` the property theorems (each closed by `exact`, followed by
`Print Assumptions`) and the concrete examples.

## 2. Trusted base

* Coq 8.16.1 kernel (incl. its `vm_compute`), and the listed libraries' proofs
  (std++, Iris BI/proof mode, Flocq for doubles) which are themselves checked.
* The hand transcription from C++ to Gallina.
* Axioms: see section 6 (output of `Print Assumptions` per theorem).

## 3. Per property plan

| property | modelled | proof |
|---|---|---|
| C01–C05, C09, C10 | vector.hpp, all members | wp triples, history refinement |
| C06 | same, allocation oracle | exceptional postconditions |
| C07, C08 | same, copy oracle; alias argument | refuted by computed witness + guarded positive theorems |
| C11–C19 | string.hpp | wp triples, history refinement, pure lemmas for find/compare; C12, C13, C15, C17, C18, C19 have refuted parts |
| C20–C22, C24 | list.hpp | doubly linked list predicate |
| C23 | all operator= | refuted for list, set, map, deque; proved for vector, forward_list |
| C25–C27 | forward_list.hpp | linked segment predicate |
| C28–C34 | set.hpp, map.hpp | tree predicate with parent links; red-black invariant |
| C35, C36 | same | refuted witness; positive under hypotheses |
| C37–C40 | deque.hpp | refuted witnesses; positive for guarded histories |
| C41, C42 | queue.hpp | FIFO proved; memory bound refuted |
| C43, C44 | memory.hpp unique_ptr | ownership history invariant |
| C45–C48 | shared_ptr.hpp | counting invariant; assignment, null copy, threads refuted |
| C49 | functional.hpp | state machine refinement |
| C50 | swap.hpp | induction on arity |
| C51 | cctype.hpp | search in the literal, all ints |
| C52–C57, C96, C108, C109 | basic_ios, streambuf, istream, sstream, cstdio | state machine refinement |
| C58, C79 | runtime_ostream, ostream, cstdio | trace refinement |
| C59–C61 | complex.hpp | any field (ring where nothing is divided) |
| C62 | complex.hpp abs | over R |
| C94, C95 | complex.hpp exp, cos, sin, cosh, sinh, log, arg, polar | over R, given exact scalar functions |
| C102–C104 | complex.hpp abs, exp, polar, sin, cos, sinh, cosh, arg, log | binary64 with the functions of cmath.hpp |
| C110–C112 | complex.hpp operators, norm on doubles | binary64, round to nearest, no fused multiply-add |
| C63, C64, C66, C80, C81 | cmath.hpp, bits/abs.hpp | binary64 with rounding (Flocq), and exact reals |
| C65, C68 | cmath.hpp | exact reals |
| C67, C69, C70, C82, C83, C97–C99 | cmath.hpp log, exp, atan, sin, cos, sinh, cosh | exact reals, and binary64 with rounding |
| C100 | cmath.hpp sin_helper, sinh_helper | number of calls, binary64 |
| C101 | cmath.hpp pow with an int exponent | binary64 with rounding |
| C71, C74 | throwing copies in list, forward_list, deque | refuted |
| C118 | throwing copies in list, forward_list | histories, lost nodes counted |
| C119 | push onto a deque whose element throws | exact outcome and state left |
| C120 | insert of a set or map whose element throws | exact outcome and what is still defined |
| C121 | vector operations whose element throws | exact memory after every throw point |
| C122 | initializer-list constructor, self-assignment and push_back of an own element when the element throws | exact memory after every throw point |
| C124, C125 | constructors and assignment of deque when a copy throws or an allocation fails | undefined for throwing copies in constructors; exact outcome otherwise |
| C126 | copy constructor and assignment of set and map when a copy throws | undefined for the constructor; exact outcome for assignment |
| C127 | copy constructor and assignment of list and forward_list when a copy throws | exact memory afterwards, leaks included |
| C128 | copy constructor and assignment of list, forward_list, set and map when the j-th allocation fails | exact memory afterwards, leaks included |
| C129 | copying and assigning list, forward_list, set and map: number of allocations and element copies | exactly n allocations and n (2n for set, map) copies, success if they do |
| C130 | insertion into list, forward_list, set and map: number of allocations and element copies | one allocation, one copy (two for set, map); none if the key is present |
| C72, C73 | deque allocation failure; own elements | partly refuted; proved |
| C113–C115 | shared_ptr of arrays, of derived objects, get_deleter | histories with throwing objects; refuted |
| C116, C117 | unique_ptr assignment, calls of empty functions | refuted |
| C75–C78 | function copy; shared_ptr ==, move, failure | refuted, with the exact effect |
| C84–C88 | vector and string, as C08, C12, C13, C15, C18 | exact effect in every state |
| C89–C91 | deque, queue, as C37, C39, C42 | exact effect in every state |
| C105–C107 | vector and string growth | allocations and constructions counted; append refuted |
| C123 | deque growth | allocations and copies of a push counted exactly; closed forms for n pushes onto a new deque |
| C92, C93 | output, as C58, C79 | exact effect for every program |

A refuted property stays in `properties.jsonl` and is `partial` in the manifest:
a `_refuted` theorem gives the witness and `_partial` theorems what does hold.
Where the true behaviour has a short description it is a property of its own
(C80–C106, C113).

## 4. What is modelled and what is not

The head comment of each `Model*.v` lists its simplifications; in short:

* **Everywhere.** Sizes and counters are unbounded (no 2^64 wrap).  The
  allocator is `std::allocator`.  Moving an element is copying it.  Element
  operations other than copying do not throw.  Each theorem is about one thread,
  except C48.  Constant evaluation and run time are the same program, except in
  the output streams, where the code distinguishes them.
* **vector.hpp** all members; `push_back(T&&)` is `push_back(const T&)`.
* **string.hpp** all members, for characters as codes; `std::char_traits`
  functions by their standard contracts; `deallocate(nullptr, n)` is harmless.
  The inserter of strings is in `ModelOstream.v`.
* **list.hpp, forward_list.hpp, set.hpp, map.hpp, deque.hpp** all members;
  `const_iter` duplicates share the model of `iter`; forward_list's
  post-increment (which returns a raw pointer) and map's template `find`
  (ill-formed if instantiated) are left out.  The chunk size of deque is a
  parameter, 1024 in examples.
* **memory.hpp** unique_ptr without ordering comparisons (they compare
  addresses), converting moves and the stream operator.
* **shared_ptr.hpp** without the stream operator; a deleter is `delete`,
  `delete[]` or any function on the object; the type of a deleter is a number.
  Derived objects are those of one class whose base has no virtual destructor.
* **functional.hpp** conversions are left out; a call that throws is one whose
  answer is the exception.
* **Throwing elements** (`HistThrow.v`) in histories of unique_ptr, shared_ptr
  and function: object constructors and assignments may throw.  In histories of
  list and forward_list copies may throw and lose nodes (`refines_leaking`,
  `ClientThrow.v`: C118).  Other containers: C07, C27, C35, C74, C119, C120,
  C121, C122, C124, C126, C127, C128 (`VectorThrow.v`, `VectorInit.v`: the vector's throw points are followed by computation).
* **swap.hpp** lines 59–71 (binary forms) are `std::swap`.
* **streams** no formatting (width, precision), put area, tie, locale; the catch
  clauses of get, unget and read are dead code.  The sentry is the branch for
  libstdc++.  For output only the events on the three standard streams.
* **complex.hpp** arithmetic, comparison, norm, conj, abs, polar form of
  integer powers, exp, log, cos, sin, cosh, sinh, arg and polar (the scalar
  functions are a parameter: exact over R in C94, C95, those of cmath.hpp on doubles
  in C102–C104; the form without `_GLIBCXX_USE_C99_COMPLEX`); not
  sqrt, tan, tanh, log10, the other pow overloads and `operator>>`.
* **cmath.hpp** every function, generic in the number type, with two instances:
  exact reals and IEEE binary64 (`SpecFloat` of the standard library).  The
  decimal constants are those of the header (15 decimals), rounded to double.
* Not modelled: `algorithm`, `numeric`, `utility`, `pair`, `array`, `iterator`,
  `limits`, `fstream`, `cstdlib`, which only re-export `std::` names.

## 5. Disagreements between the code and the standard library

Found while modelling.  Those with a property are witnessed by its `_refuted`
theorems; the others are reading notes.

* vector: a throwing element copy destroys unconstructed storage or leaks
  (C07); `push_back(v[i])` on a full vector reads freed memory (C08); the
  initializer-list constructor leaks on failure (C06).
* string: copies stop at the first null (C12); `s = s` reads freed memory when
  it reallocates (C13); `find(ch,pos)` ignores `pos` (C15); construction from an
  empty input range is undefined (C17); `push_back(s[i])` on a full string
  (C18); failed assignment leaves a dangling buffer (C19).
* self-assignment empties list, set, map and deque (C23).
* forward_list: a failed copy leaks (C27).  list, forward_list: a throwing
  element copy leaks the node (C71); set, map: it leaves a broken tree (C35).
* string: append enlarges the array to exactly the new length, so repeated `+=` of
  strings reallocates every time (C107).
* map iteration uses `operator==` of the key (C36).  The template `find` does
  not compile.  Comparators are never copied.
* deque: push_back after pop_back at a chunk's end goes out of bounds (C37);
  iteration, `--` and iterator differences go wrong at chunk ends (C39); a
  failed allocation leaks a chunk (C72); a throwing copy leaves a wrong size
  (C74); chunks are only freed by the destructor, so a queue grows without bound
  (C42).  There is no move constructor.
* shared_ptr: assignment does not count (C46); copying an empty one is
  undefined (C47); the count is not atomic (C48); `==` compares null-ness (C76);
  no move (C77); a failed allocation leaks (C78);
  `shared_ptr<Base>(Derived*)` deletes a `Base*` (C114), and get_deleter does not
  find its deleter (C115).
* unique_ptr: move assignment swaps (C116).
* function: copying recurses for ever (C75); calling an empty one is undefined
  (C117); a const one cannot be copied.
* streams: `str(s)` truncates at a null (C56); a sentry that should skip white
  space makes the stream bad instead (C108); `cin` reads the text "cin" (C109); `str()` const does not compile;
  `hex`/`dec`/`oct` do nothing, strings are truncated at a null (C58);
  `operator<<(long)` and the smart pointer inserters do not link or compile;
  printf/fprintf differences (C79).
* complex: `operator/=` divides by norm(w) without scaling, so 2^600 / 2^600 is NaN (C112); abs, log, sin, ... of complex<double> never return for infinities and NaN, and
  abs(0 + NaN i) is 0 (C102–C104); sqrt, tan, tanh, log10 and two pow overloads call `std::` functions
  that do not take cest::complex.
* cmath: floor and ceil wrong next to integers (C63); `abs(-0)` is `-0` (C64);
  `pow(b, INT_MIN)` overflows (C65); sqrt of 0, infinity, negatives and NaN never
  returns (C66, C81); log of infinity and NaN never returns (C82); exp overflows
  already above 709.5 (C69, C83); sin, cos, sinh and
  cosh of infinity and NaN never return, nor does cosh from 356 on (C98, C99);
  sin and sinh call themselves 2^k times (C100); pow of a number below 1 sticks at a
  few subnormals instead of reaching 0, and a negative power is infinite or 0 when
  its inverse is out of range (C101);
  atan is wrong by more than 3e-5 because it uses its own sqrt(3), and never
  returns for NaN (C70, C97).

## 6. Axioms

`Print Assumptions` under each theorem lists:

* nothing ("Closed under the global context"), for 350 theorems: all those not named below;
* `ClassicalDedekindReals.sig_forall_dec`, `FunctionalExtensionality.functional_extensionality_dep`, for 30 theorems: `C62_complex_reals`, `C62_complex_abs_scaled`, `C65_pow_is_power`, `C65_pow_zero_negative`, `C65_pow_int_min_refuted`, `C66_sqrt_exact_zero_refuted`, `C66_sqrt_exact_negative`, `C67_mantissa_partial`, `C67_exponent_partial`, `C69_split_partial`, `C63_floor_refuted`, `C63_ceil_refuted`, `C63_out_of_range`, `C63_floor_exact`, `C63_ceil_exact`, `C64_abs_value`, `C66_sqrt_zero_refuted`, `C82_log_cases`, `C98_sin_below_zero`, `C98_cos_zero`, `C101_pow_nan`, `C101_pow_infinity`, `C101_pow_infinity_negative`, `C101_pow_of_zero`, `C101_pow_of_zero_negative`, `C101_pow_depth`, `C101_negative_depth`, `C102_abs_zero`, `C104_zero`, `C110_negation`.
* `ClassicalDedekindReals.sig_forall_dec`, `ClassicalDedekindReals.sig_not_dec`, `FunctionalExtensionality.functional_extensionality_dep`, for 4 theorems: `C62_complex_abs`, `C66_sqrt_exact_partial`, `C66_sqrt_close_partial`, `C112_quotient_refuted`.
* `ClassicalDedekindReals.sig_forall_dec`, `ClassicalDedekindReals.sig_not_dec`, `Classical_Prop.classic`, `FunctionalExtensionality.functional_extensionality_dep`, for 97 theorems: `C67_decimal_exists`, `C67_log_partial`, `C68_sin`, `C68_sin_positive`, `C68_cos`, `C68_sinh`, `C68_cosh`, `C69_exp_partial`, `C70_atan_exact`, `C70_atan_odd_exact`, `C70_atan2_exact`, `C63_floor_partial`, `C63_ceil_partial`, `C66_sqrt_double_partial`, `C66_sqrt_otherwise_runs_forever`, `C80_floor_double`, `C80_ceil_double`, `C81_sqrt_returns_iff_positive`, `C81_sqrt_error`, `C81_sqrt_otherwise_runs_forever`, `C67_mantissa_exponent_double_partial`, `C67_mantissa_exponent_double_refuted`, `C82_log_error`, `C69_split_double`, `C69_exp_refuted`, `C83_exp_error`, `C83_exp_overflow`, `C83_exp_underflow`, `C83_exp_out_of_range`, `C94_complex_exp`, `C94_complex_exp_unique`, `C94_complex_trig`, `C95_complex_log`, `C95_complex_polar`, `C95_complex_abs_arg`, `C70_atan_double`, `C70_atan2_double`, `C97_atan_zero`, `C97_atan_infinity`, `C97_atan_nan`, `C97_atan2_infinite_y`, `C97_atan2_infinite_x`, `C97_atan2_both_infinite`, `C97_atan2_nan_y`, `C97_atan_not_close`, `C97_atan2_underflow`, `C98_sin_double`, `C98_cos_double`, `C98_sin_tiny`, `C98_sin_not_odd`, `C98_cos_not_even`, `C99_sinh_double`, `C99_sinh_overflow`, `C99_sinh_overflow_negative`, `C99_sinh_edge`, `C99_sinh_tiny`, `C99_cosh_double`, `C99_cosh_overflow`, `C100_sin_calls`, `C100_sin_calls_negative`, `C100_sinh_calls`, `C101_pow_sign`, `C101_pow_accuracy`, `C101_pow_overflow`, `C101_pow_underflow`, `C101_negative_accuracy`, `C101_negative_lost`, `C101_negative_overflow`, `C101_lost_double`, `C102_abs_accuracy`, `C102_abs_special`, `C103_exp_accuracy`, `C103_exp_underflow`, `C103_exp_overflow`, `C103_exp_undefined`, `C103_polar_accuracy`, `C103_sin_accuracy`, `C103_cos_accuracy`, `C103_sinh_accuracy`, `C103_cosh_accuracy`, `C103_sin_cos_never`, `C103_sinh_cosh_never`, `C104_arg_accuracy`, `C104_log_accuracy`, `C104_log_small`, `C104_log_overflow`, `C110_sum`, `C110_difference`, `C110_product`, `C110_scalar_product`, `C110_scalar_quotient`, `C111_norm`, `C111_norm_overflow`, `C111_norm_underflow`, `C112_quotient_partial`, `C112_large_divisor`, `C112_small_divisor`.

All are axioms of Coq's standard library (the classical reals, functional
extensionality and excluded middle).  Flocq and Coquelicot, used in the files on
reals and doubles, and std++ and Iris, used elsewhere, add none.

`coqchk` lists a little more for the loaded files as a whole: the constants of
the modules `RbaseSymbolsImpl` and `RinvImpl` of the standard library's Reals
and those of `ssrunder`'s `Under_rel`, which are sealed by a module type and are
defined, not assumed.

## 7. Mutation tests

`seeded/LOG.jsonl` records wrong programs: each entry is one edit of a model
definition, made in a scratch copy, with the claim it breaks and the theorems
that no longer go through.  A theorem counts as failing if its proof, or a lemma
it uses, is rejected.
