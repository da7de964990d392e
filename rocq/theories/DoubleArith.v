(** The operations of double as rounded operations on real numbers, from Flocq. *)
From Coq Require Import ZArith Reals Lra Lia Psatz.
From Coq.Floats Require Import SpecFloat.
From Flocq Require Import Core BinarySingleNaN.
From Verif Require Import ModelCmath SpecCmath.
Open Scope R_scope.

#[local] Instance Hprec : FLX.Prec_gt_0 53 := eq_refl _.
#[local] Instance Hmax : Prec_lt_emax 53 1024 := eq_refl _.

(** rounding to nearest even *)
Definition rnd (r : R) : R := round radix2 (SpecFloat.fexp 53 1024) ZnearestE r.
Definition big : R := bpow radix2 1024.

(** the operations of the standard library are those of Flocq
    (after Flocq's own proof for primitive floats) *)
Lemma rne_equiv s m l : round_nearest_even m l = choice_mode mode_NE s m l.
Proof.
  case l; [reflexivity|intro c]. case c; [ | reflexivity..].
  now simpl; unfold Round.cond_incr; case Z.even.
Qed.
Lemma bra_equiv sx mx ex lx :
  SpecFloat.binary_round_aux 53 1024 sx mx ex lx = BinarySingleNaN.binary_round_aux 53 1024 mode_NE sx mx ex lx.
Proof.
  unfold SpecFloat.binary_round_aux, BinarySingleNaN.binary_round_aux. set (mrse' := shr_fexp _ _ _ _ _).
  case mrse'; intros mrs' e'; simpl. now rewrite (rne_equiv sx).
Qed.
Lemma br_equiv s m e : SpecFloat.binary_round 53 1024 s m e = BinarySingleNaN.binary_round 53 1024 mode_NE s m e.
Proof.
  unfold SpecFloat.binary_round, BinarySingleNaN.binary_round, shl_align_fexp.
  set (mez := shl_align _ _ _); case mez as [mz ez]. apply bra_equiv.
Qed.
Lemma bn_equiv m e szero :
  SpecFloat.binary_normalize 53 1024 m e szero
  = B2SF (BinarySingleNaN.binary_normalize 53 1024 Hprec Hmax mode_NE m e szero).
Proof.
  case m as [ | p | p]; [now simpl| |]; simpl; rewrite B2SF_SF2B; apply br_equiv.
Qed.
Notation bf := (binary_float 53 1024).
Lemma add_equiv (x y : bf) : SFadd 53 1024 (B2SF x) (B2SF y) = B2SF (Bplus mode_NE x y).
Proof.
  case x as [sx|sx| |sx mx ex Bx]; case y as [sy|sy| |sy my ey By]; [now (trivial || simpl; case Bool.eqb).. | ].
  apply bn_equiv.
Qed.
Lemma sub_equiv (x y : bf) : SFsub 53 1024 (B2SF x) (B2SF y) = B2SF (Bminus mode_NE x y).
Proof.
  case x as [sx|sx| |sx mx ex Bx]; case y as [sy|sy| |sy my ey By]; [now (trivial || simpl; case Bool.eqb).. | ].
  simpl. unfold Zminus. rewrite <- cond_Zopp_negb. apply bn_equiv.
Qed.
Lemma mul_equiv (x y : bf) : SFmul 53 1024 (B2SF x) (B2SF y) = B2SF (Bmult mode_NE x y).
Proof.
  case x as [sx|sx| |sx mx ex Bx]; case y as [sy|sy| |sy my ey By]; [now trivial.. | ].
  simpl. rewrite B2SF_SF2B. apply bra_equiv.
Qed.
Lemma div_equiv (x y : bf) : SFdiv 53 1024 (B2SF x) (B2SF y) = B2SF (Bdiv mode_NE x y).
Proof.
  case x as [sx|sx| |sx mx ex Bx]; case y as [sy|sy| |sy my ey By]; [now (trivial || simpl; case Bool.eqb).. | ].
  simpl. rewrite B2SF_SF2B. set (melz := SFdiv_core_binary _ _ _ _ _ _). case melz as [[mz ez] lz]. apply bra_equiv.
Qed.

(** numbers *)
Lemma number_B2SF x : is_number x -> exists b : bf, B2SF b = x /\ is_finite b = true /\ B2R b = dval x.
Proof.
  intros [Hv Hn]. exists (SF2B x Hv). split; [apply B2SF_SF2B|]. split.
  - rewrite is_finite_SF2B. destruct x; try easy.
  - rewrite B2R_SF2B. destruct x as [s|s| |s m e]; try easy. simpl. unfold F2R. simpl.
    rewrite bpow_powerRZ. destruct s; [rewrite <- opp_IZR|]; reflexivity.
Qed.
Lemma B2SF_number (b : bf) : is_finite b = true -> is_number (B2SF b) /\ dval (B2SF b) = B2R b.
Proof.
  intros Hf. split; [split; [apply valid_binary_B2SF|]|].
  - now destruct b.
  - destruct b as [s|s| |s m e H]; try easy. simpl. unfold F2R. simpl.
    rewrite bpow_powerRZ. destruct s; [rewrite <- opp_IZR|]; reflexivity.
Qed.
Lemma dadd_ok x y : is_number x -> is_number y -> Rabs (rnd (dval x + dval y)) < big ->
  is_number (nadd dbl x y) /\ dval (nadd dbl x y) = rnd (dval x + dval y).
Proof.
  intros Hx Hy Hb. destruct (number_B2SF x Hx) as (bx & <- & Fx & Ex). destruct (number_B2SF y Hy) as (by_ & <- & Fy & Ey).
  rewrite <- Ex, <- Ey in *. change (nadd dbl) with (SFadd 53 1024). rewrite add_equiv.
  pose proof (Bplus_correct 53 1024 _ _ mode_NE bx by_ Fx Fy) as H. unfold rnd, big in Hb. simpl round_mode in H.
  rewrite Rlt_bool_true in H by exact Hb. destruct H as (H1 & H2 & _).
  destruct (B2SF_number _ H2) as [H3 H4]. split; [exact H3|]. rewrite H4. exact H1.
Qed.
Lemma dsub_ok x y : is_number x -> is_number y -> Rabs (rnd (dval x - dval y)) < big ->
  is_number (nsub dbl x y) /\ dval (nsub dbl x y) = rnd (dval x - dval y).
Proof.
  intros Hx Hy Hb. destruct (number_B2SF x Hx) as (bx & <- & Fx & Ex). destruct (number_B2SF y Hy) as (by_ & <- & Fy & Ey).
  rewrite <- Ex, <- Ey in *. change (nsub dbl) with (SFsub 53 1024). rewrite sub_equiv.
  pose proof (Bminus_correct 53 1024 _ _ mode_NE bx by_ Fx Fy) as H. unfold rnd, big in Hb. simpl round_mode in H.
  rewrite Rlt_bool_true in H by exact Hb. destruct H as (H1 & H2 & _).
  destruct (B2SF_number _ H2) as [H3 H4]. split; [exact H3|]. rewrite H4. exact H1.
Qed.
Lemma dmul_ok x y : is_number x -> is_number y -> Rabs (rnd (dval x * dval y)) < big ->
  is_number (nmul dbl x y) /\ dval (nmul dbl x y) = rnd (dval x * dval y).
Proof.
  intros Hx Hy Hb. destruct (number_B2SF x Hx) as (bx & <- & Fx & Ex). destruct (number_B2SF y Hy) as (by_ & <- & Fy & Ey).
  rewrite <- Ex, <- Ey in *. change (nmul dbl) with (SFmul 53 1024). rewrite mul_equiv.
  pose proof (Bmult_correct 53 1024 _ _ mode_NE bx by_) as H. unfold rnd, big in Hb. simpl round_mode in H.
  rewrite Rlt_bool_true in H by exact Hb. destruct H as (H1 & H2 & _). rewrite Fx, Fy in H2.
  destruct (B2SF_number _ H2) as [H3 H4]. split; [exact H3|]. rewrite H4. exact H1.
Qed.
Lemma ddiv_ok x y : is_number x -> is_number y -> dval y <> 0 -> Rabs (rnd (dval x / dval y)) < big ->
  exists q, ndiv dbl x y = Value q /\ is_number q /\ dval q = rnd (dval x / dval y).
Proof.
  intros Hx Hy H0 Hb. destruct (number_B2SF x Hx) as (bx & <- & Fx & Ex). destruct (number_B2SF y Hy) as (by_ & <- & Fy & Ey).
  rewrite <- Ex, <- Ey in *. simpl ndiv. unfold dprec, demax. rewrite div_equiv.
  pose proof (Bdiv_correct 53 1024 _ _ mode_NE bx by_ H0) as H. unfold rnd, big in Hb. simpl round_mode in H.
  rewrite Rlt_bool_true in H by exact Hb. destruct H as (H1 & H2 & _). rewrite Fx in H2.
  destruct (B2SF_number _ H2) as [H3 H4]. eexists. split; [reflexivity|]. split; [exact H3|]. rewrite H4. exact H1.
Qed.
Lemma dcmp x y : is_number x -> is_number y -> SFcompare x y = Some (Rcompare (dval x) (dval y)).
Proof.
  intros Hx Hy. destruct (number_B2SF x Hx) as (bx & <- & Fx & Ex). destruct (number_B2SF y Hy) as (by_ & <- & Fy & Ey).
  rewrite <- Ex, <- Ey. apply (Bcompare_correct 53 1024 bx by_ Fx Fy).
Qed.
Lemma dlt x y : is_number x -> is_number y -> n_lt dbl x y = Rlt_bool (dval x) (dval y).
Proof.
  intros Hx Hy. simpl. unfold SFltb. rewrite dcmp by assumption. destruct (Rcompare_spec (dval x) (dval y)).
  - now rewrite Rlt_bool_true. - rewrite Rlt_bool_false; lra || reflexivity. - rewrite Rlt_bool_false; lra || reflexivity.
Qed.
Lemma dle x y : is_number x -> is_number y -> n_le dbl x y = Rle_bool (dval x) (dval y).
Proof.
  intros Hx Hy. simpl. unfold SFleb. rewrite dcmp by assumption. destruct (Rcompare_spec (dval x) (dval y)).
  - rewrite Rle_bool_true; lra || reflexivity. - rewrite Rle_bool_true; lra || reflexivity. - rewrite Rle_bool_false; lra || reflexivity.
Qed.
Lemma deq x y : is_number x -> is_number y -> n_eq dbl x y = Req_bool (dval x) (dval y).
Proof.
  intros Hx Hy. simpl. unfold SFeqb. rewrite dcmp by assumption. destruct (Rcompare_spec (dval x) (dval y)).
  - rewrite Req_bool_false; lra || reflexivity. - rewrite Req_bool_true; lra || reflexivity. - rewrite Req_bool_false; lra || reflexivity.
Qed.
Lemma dopp_ok x : is_number x -> is_number (nopp dbl x) /\ dval (nopp dbl x) = - dval x.
Proof.
  intros [Hv Hn]. destruct x as [s|s| |s m e]; try easy.
  - split; [easy|]. simpl. lra.
  - split; [easy|]. simpl. destruct s; simpl; ring.
Qed.
(** rounding *)
Lemma rnd_format x : is_number x -> generic_format radix2 (SpecFloat.fexp 53 1024) (dval x).
Proof.
  intros Hx. destruct (number_B2SF x Hx) as (bx & <- & Fx & <-). apply generic_format_B2R.
Qed.
Lemma rnd_id r : generic_format radix2 (SpecFloat.fexp 53 1024) r -> rnd r = r.
Proof. intros H. apply round_generic; [apply valid_rnd_N|exact H]. Qed.
Lemma rnd_le a b : a <= b -> rnd a <= rnd b.
Proof. apply round_le; [apply fexp_correct; reflexivity|apply valid_rnd_N]. Qed.
Lemma fmt_FLT m e : (Z.abs m < 2 ^ 53)%Z -> (-1074 <= e)%Z ->
  generic_format radix2 (SpecFloat.fexp 53 1024) (IZR m * bpow radix2 e).
Proof.
  intros Hm He. apply (generic_format_FLT radix2 (-1074) 53). exists (Float radix2 m e); [reflexivity|exact Hm|exact He].
Qed.
Lemma fmt_int z : (Z.abs z < 2 ^ 53)%Z -> generic_format radix2 (SpecFloat.fexp 53 1024) (IZR z).
Proof.
  intros Hz. replace (IZR z) with (IZR z * bpow radix2 0) by (simpl; ring). apply fmt_FLT; [exact Hz|lia].
Qed.
Lemma bpow_big a : Rabs a < bpow radix2 1023 -> Rabs (rnd a) < big.
Proof.
  intros H. eapply Rle_lt_trans; [|apply bpow_lt with (e1 := 1023%Z); lia].
  assert (rnd (bpow radix2 1023) = bpow radix2 1023) as E.
  { apply rnd_id. replace (bpow radix2 1023) with (IZR 1 * bpow radix2 1023) by ring. apply fmt_FLT; lia. }
  assert (rnd (- bpow radix2 1023) = - bpow radix2 1023) as E'.
  { apply rnd_id. replace (- bpow radix2 1023) with (IZR (-1) * bpow radix2 1023) by ring. apply fmt_FLT; lia. }
  apply Rabs_def2 in H. apply Rabs_le. rewrite <- E at 2. rewrite <- E'. split; apply rnd_le; lra.
Qed.
Lemma small_big a : Rabs a < IZR (2 ^ 60) -> Rabs (rnd a) < big.
Proof.
  intros H. apply bpow_big. eapply Rlt_trans; [exact H|]. replace (IZR (2 ^ 60)) with (bpow radix2 60).
  - apply bpow_lt. lia. - rewrite <- IZR_Zpower by lia. reflexivity.
Qed.
Lemma dint_ok z : (Z.abs z < 2 ^ 53)%Z -> is_number (nint dbl z) /\ dval (nint dbl z) = IZR z.
Proof.
  intros Hz. simpl nint. unfold dint, dprec, demax. rewrite bn_equiv.
  pose proof (binary_normalize_correct 53 1024 Hprec Hmax mode_NE z 0 false) as H. simpl round_mode in H.
  assert (F2R (Float radix2 z 0) = IZR z) as E by (unfold F2R; simpl; ring). rewrite E in H.
  assert (round radix2 (SpecFloat.fexp 53 1024) ZnearestE (IZR z) = IZR z) as E2 by (apply rnd_id, fmt_int, Hz).
  cbv zeta in H. rewrite E2 in H. rewrite Rlt_bool_true in H.
  - destruct H as (H1 & H2 & _). destruct (B2SF_number _ H2) as [H3 H4]. split; [exact H3|]. rewrite H4. exact H1.
  - rewrite <- (rnd_id (IZR z)) by now apply fmt_int. apply small_big. rewrite <- abs_IZR. apply IZR_lt.
    eapply Z.lt_trans; [exact Hz|reflexivity].
Qed.
