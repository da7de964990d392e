(** The operators of complex numbers on doubles, as called. *)
From iris.prelude Require Import prelude.
From Verif Require Import Mem Hist ModelComplex SpecComplex ComplexProofs ComplexAbs SpecComplexFun
  ModelCmath SpecCmath DoubleArith DoubleNear ModelComplexDouble SpecComplexDouble DoubleComplexArith.
From Coq Require Import Reals Lra.
From Coq.Floats Require Import SpecFloat.
Open Scope R_scope.

Notation D := (spec_float * spec_float)%type.
Lemma sum_rounded x y : is_number x → is_number y → rounded (dval x + dval y) (nadd dbl x y).
Proof. intros Hx Hy. exact (sum_c x y Hx Hy). Qed.
Lemma sub_rounded x y : is_number x → is_number y → rounded (dval x - dval y) (nsub dbl x y).
Proof.
  intros Hx Hy. rewrite sub_add. destruct (dopp_ok y Hy) as [N V]. pose proof (sum_rounded x (nopp dbl y) Hx N) as H.
  by rewrite V in H.
Qed.
Section calls.
  Variables (m : mem D) (x : loc) (v : D).
  Hypothesis (Hm : mem_wf m) (Hx : blk m !! x = Some v) (Nv : is_number2 v).
  Lemma neg_ok : ∃ r, yields (op_neg darith x) r m ∧ is_number2 r ∧ cval r = copp Rarith (cval v).
  Proof using Hm Hx Nv.
    exists (copp darith v). split; [by apply op_neg_ok|]. destruct Nv as [N1 N2]. destruct (dopp_ok _ N1) as [M1 V1], (dopp_ok _ N2) as [M2 V2].
    split; [by split|]. unfold cval. simpl in *. by rewrite V1 V2.
  Qed.
  Lemma norm_ok' : modulus (cval v) <= powerRZ 2 511 →
    ∃ r, yields (c_norm darith x) r m ∧ is_number r ∧
      within ((powerRZ 2 (-52) + powerRZ 2 (-106)) * (modulus (cval v) * modulus (cval v)) + 3 * powerRZ 2 (-1075)) (dval r)
        (modulus (cval v) * modulus (cval v)).
  Proof using Hm Hx Nv.
    intros L. exists (dnorm v.1 v.2). split; [by apply (c_norm_ok darith)|]. destruct Nv as [N1 N2].
    assert (modulus (cval v) * modulus (cval v) = dval v.1 * dval v.1 + dval v.2 * dval v.2) as E by apply len_sq.
    rewrite E. apply norm_c; [done..|]. rewrite -E.
    replace (powerRZ 2 1022) with (powerRZ 2 511 * powerRZ 2 511) by (rewrite -powerRZ_add; [done|lra]).
    apply Rmult_le_compat; try done; apply sqrt_pos.
  Qed.
  Lemma norm_over' : powerRZ 2 1025 <= modulus (cval v) * modulus (cval v) → yields (c_norm darith x) (S754_infinity false) m.
  Proof using Hm Hx Nv.
    intros L. destruct Nv as [N1 N2]. rewrite <- (norm_over v.1 v.2); [by apply (c_norm_ok darith)|done..|].
    rewrite -pz -len_sq. exact L.
  Qed.
  Lemma norm_under' : modulus (cval v) * modulus (cval v) <= powerRZ 2 (-1076) → yields (c_norm darith x) (S754_zero false) m.
  Proof using Hm Hx Nv.
    intros L. destruct Nv as [N1 N2]. rewrite <- (norm_under v.1 v.2); [by apply (c_norm_ok darith)|done..|].
    rewrite -pz -len_sq. exact L.
  Qed.
  Lemma mul_scal t : is_number t → Rabs (dval v.1 * dval t) < powerRZ 2 1023 → Rabs (dval v.2 * dval t) < powerRZ 2 1023 →
    ∃ r, yields (op_mul_t darith x t) r m ∧ yields (t_op_mul darith t x) r m ∧ c_mul_t darith x t m = Ok tt (assigned m x r) ∧ is_number2 r ∧
      near2 (powerRZ 2 (-53) * Rabs (dval v.1 * dval t) + powerRZ 2 (-1075)) (powerRZ 2 (-53) * Rabs (dval v.2 * dval t) + powerRZ 2 (-1075))
        (cval r) (dval v.1 * dval t, dval v.2 * dval t).
  Proof using Hm Hx Nv.
    intros Ht L1 L2. destruct Nv as [N1 N2]. destruct (scal_mul_c _ _ N1 Ht L1) as [M1 E1], (scal_mul_c _ _ N2 Ht L2) as [M2 E2].
    eexists. split; [by apply op_mul_t_ok|]. split; [by apply t_op_mul_ok|]. split; [by apply mul_t_ok|]. done.
  Qed.
  Lemma div_scal t : is_number t → dval t ≠ 0 → Rabs (dval v.1 / dval t) < powerRZ 2 1023 → Rabs (dval v.2 / dval t) < powerRZ 2 1023 →
    ∃ r, yields (op_div_t darith x t) r m ∧ c_div_t darith x t m = Ok tt (assigned m x r) ∧ is_number2 r ∧
      near2 (powerRZ 2 (-53) * Rabs (dval v.1 / dval t) + powerRZ 2 (-1075)) (powerRZ 2 (-53) * Rabs (dval v.2 / dval t) + powerRZ 2 (-1075))
        (cval r) (dval v.1 / dval t, dval v.2 / dval t).
  Proof using Hm Hx Nv.
    intros Ht Z L1 L2. destruct Nv as [N1 N2]. destruct (scal_div_c _ _ N1 Ht Z L1) as [M1 E1], (scal_div_c _ _ N2 Ht Z L2) as [M2 E2].
    eexists. split; [by apply op_div_t_ok|]. split; [by apply div_t_ok|]. done.
  Qed.

  Variables (y : loc) (w : D).
  Hypothesis (Hy : blk m !! y = Some w) (Nw : is_number2 w).
  Lemma add_ok : ∃ r, yields (op_add darith x y) r m ∧ c_add_c darith x y m = Ok tt (assigned m x r) ∧
    rounded (dval v.1 + dval w.1) r.1 ∧ rounded (dval v.2 + dval w.2) r.2.
  Proof using Hm Hx Nv Hy Nw.
    exists (cadd darith v w). split; [by apply op_add_ok|]. split; [by apply add_c_ok|]. destruct Nv, Nw. split; by apply sum_rounded.
  Qed.
  Lemma sub_ok : ∃ r, yields (op_sub darith x y) r m ∧ c_sub_c darith x y m = Ok tt (assigned m x r) ∧
    rounded (dval v.1 - dval w.1) r.1 ∧ rounded (dval v.2 - dval w.2) r.2.
  Proof using Hm Hx Nv Hy Nw.
    exists (csub darith v w). split; [by apply op_sub_ok|]. split; [by apply sub_c_ok|]. destruct Nv, Nw. split; by apply sub_rounded.
  Qed.
  Local Notation M := (modulus (cval v) * modulus (cval w)).
  Lemma mul_ok : M <= powerRZ 2 1022 →
    ∃ r, yields (op_mul darith x y) r m ∧ c_mul_c darith x y m = Ok tt (assigned m x r) ∧ is_number2 r ∧
      near2 ((powerRZ 2 (-52) + powerRZ 2 (-106)) * M + 3 * powerRZ 2 (-1075)) ((powerRZ 2 (-52) + powerRZ 2 (-106)) * M + 3 * powerRZ 2 (-1075))
        (cval r) (cmul Rarith (cval v) (cval w)).
  Proof using Hm Hx Nv Hy Nw.
    intros L. exists (cmul darith v w). split; [by apply op_mul_ok|]. split; [by apply mul_c_ok|]. destruct Nv as [N1 N2], Nw as [N3 N4].
    destruct (dot_c v.1 v.2 w.1 w.2) as [_ [M1 E1]]; [done..|].
    destruct (dot_c v.1 v.2 w.2 w.1) as [[M2 E2] _]; [done..|by rewrite (len_swap (dval w.2))|]. rewrite (len_swap (dval w.2)) in E2.
    split; [by split|]. by split.
  Qed.
  Lemma div_ok : powerRZ 2 (-480) <= modulus (cval w) <= powerRZ 2 511 → M <= powerRZ 2 1022 →
    modulus (cval v) <= powerRZ 2 1021 * modulus (cval w) →
    let e := 6 * powerRZ 2 (-53) * (modulus (cval v) / modulus (cval w)) +
      4 * (powerRZ 2 (-1075) / (modulus (cval w) * modulus (cval w))) + powerRZ 2 (-1075) in
    ∃ r, yields (op_div darith x y) r m ∧ c_div_c darith x y m = Ok tt (assigned m x r) ∧ is_number2 r ∧
      near2 e e (cval r) (cdiv Rarith (cval v) (cval w)).
  Proof using Hm Hx Nv Hy Nw.
    intros L1 L2 L3 e. exists (quot darith v w). split; [by apply op_div_ok|]. split; [by apply div_c_ok|]. destruct Nv as [N1 N2], Nw as [N3 N4].
    destruct (quot_c v.1 v.2 w.1 w.2) as [[M1 E1] _]; [done..|].
    destruct (quot_c v.2 v.1 w.1 w.2) as [_ [M2 E2]]; [done|done|done|done|done|by rewrite (len_swap (dval v.2))|by rewrite (len_swap (dval v.2))|].
    rewrite (len_swap (dval v.2)) in E2.
    set (l := len (dval w.1) (dval w.2)) in *.
    assert (cdiv Rarith (cval v) (cval w) =
      ((dval v.1 * dval w.1 + dval v.2 * dval w.2) / (l * l), (dval v.2 * dval w.1 - dval v.1 * dval w.2) / (l * l))) as ->.
    { rewrite -(quot_ok _ R_exact) /l len_sq. done. }
    split; [by split|]. by split.
  Qed.
  Lemma div_over : powerRZ 2 1025 <= modulus (cval w) * modulus (cval w) →
    ∃ r, yields (op_div darith x y) r m ∧ c_div_c darith x y m = Ok tt (assigned m x r) ∧ zero_or_nan r.1 ∧ zero_or_nan r.2.
  Proof using Hm Hx Hy Nw.
    intros L. exists (quot darith v w). split; [by apply op_div_ok|]. split; [by apply div_c_ok|]. destruct Nw as [N3 N4].
    assert (norm2 darith w = S754_infinity false) as E by (apply norm_over; [done..|rewrite -pz -len_sq; exact L]).
    unfold quot. rewrite E. split; apply div_inf.
  Qed.
  Lemma div_under : modulus (cval w) * modulus (cval w) <= powerRZ 2 (-1076) →
    ∃ r, yields (op_div darith x y) r m ∧ c_div_c darith x y m = Ok tt (assigned m x r) ∧ infinite_or_nan r.1 ∧ infinite_or_nan r.2.
  Proof using Hm Hx Hy Nw.
    intros L. exists (quot darith v w). split; [by apply op_div_ok|]. split; [by apply div_c_ok|]. destruct Nw as [N3 N4].
    assert (norm2 darith w = S754_zero false) as E by (apply norm_under; [done..|rewrite -pz -len_sq; exact L]).
    unfold quot. rewrite E. split; apply div_zero.
  Qed.
End calls.
(** 2^600 over itself *)
Definition z600 : D := (S754_finite false 4503599627370496 548, S754_zero false).
Definition mem600 : mem D := Mem {[ 1%positive := z600 ]} 2%positive [] [].
Lemma mem600_wf : mem_wf mem600.
Proof. intros l. unfold mem600. simpl. intros [? Hl]. apply lookup_singleton_Some in Hl as [<- _]. done. Qed.
Lemma div_refuted : ∃ m x v, mem_wf m ∧ blk m !! x = Some v ∧ is_number2 v ∧ modulus (cval v) = powerRZ 2 600 ∧
  cdiv Rarith (cval v) (cval v) = (1, 0) ∧ yields (op_div darith x x) (S754_nan, S754_zero false) m.
Proof.
  exists mem600, 1%positive, z600. split; [apply mem600_wf|]. split; [done|]. split; [by repeat split|].
  assert (cval z600 = (powerRZ 2 600, 0)) as E.
  { unfold cval, z600, dval. simpl fst. simpl snd. f_equal. replace 600%Z with (52 + 548)%Z by done. rewrite powerRZ_add; [|lra].
    f_equal. rewrite (pz 52). reflexivity. }
  rewrite E. assert (0 < powerRZ 2 600) as P by (apply powerRZ_lt; lra). split; [|split].
  - unfold modulus. simpl fst. simpl snd. rewrite Rmult_0_r Rplus_0_r. apply sqrt_square. lra.
  - clear E. revert P. generalize (powerRZ 2 600). intros p P. rewrite -(quot_ok _ R_exact). unfold quot, norm2. cbn. f_equal; field; nra.
  - replace (S754_nan, S754_zero false) with (quot darith z600 z600) by (vm_compute; reflexivity).
    apply op_div_ok; [apply mem600_wf|done|done].
Qed.
