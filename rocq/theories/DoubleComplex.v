(** The scalar part of the complex functions on doubles *)
From Coq Require Import ZArith Reals Lra Lia Psatz.
From Coq.Floats Require Import SpecFloat.
From Coquelicot Require Import Coquelicot.
From Flocq Require Import Core BinarySingleNaN.
From Verif Require Import ModelCmath SpecCmath CmathBounds CmathReal DoubleArith DoubleRound DoubleSqrt DoubleNear DoubleLog DoubleExp DoubleAtan DoubleSin DoubleSinh DoublePow.
Open Scope R_scope.

Definition p_max (a b : spec_float) : spec_float := if n_lt dbl a b then b else a.
Definition p_abs (n : nat) (x y : spec_float) : outcome spec_float :=
  let s := p_max (m_abs dbl x) (m_abs dbl y) in
  if n_eq dbl s (nint dbl 0) then Value s else
  let a := SFdiv dprec demax x s in let b := SFdiv dprec demax y s in
  obind (m_sqrt dbl n (nadd dbl (nmul dbl a a) (nmul dbl b b))) (fun q => Value (nmul dbl s q)).

Lemma max_value x y : is_number x -> is_number y -> let s := p_max (m_abs dbl x) (m_abs dbl y) in
  is_number s /\ dval s = Rmax (Rabs (dval x)) (Rabs (dval y)).
Proof.
  intros Hx Hy s. destruct (abs_value x Hx) as [Ax Ex]. destruct (abs_value y Hy) as [Ay Ey]. unfold s, p_max.
  rewrite dlt, Ex, Ey by assumption. unfold Rmax. destruct (Rlt_bool_spec (Rabs (dval x)) (Rabs (dval y))); destruct (Rle_dec (Rabs (dval x)) (Rabs (dval y))); try lra; auto.
  split; [exact Ax|]. rewrite Ex. lra.
Qed.
Lemma div_sf x s q : ndiv dbl x s = Value q -> SFdiv dprec demax x s = q.
Proof. intros H. now injection H. Qed.
Lemma ratio_near x s : is_number x -> is_number s -> 0 < dval s -> Rabs (dval x) <= dval s ->
  near (2 * u) (SFdiv dprec demax x s) (dval x / dval s) /\ -1 <= dval x / dval s <= 1.
Proof.
  intros Hx Hs Ps L. apply Rabs_le_inv in L.
  assert (-1 <= dval x / dval s <= 1) as B.
  { split; apply (Rmult_le_reg_r (dval s)); try exact Ps; unfold Rdiv; rewrite Rmult_assoc, Rinv_l by lra; lra. }
  split; [|exact B]. assert (Rabs (dval x / dval s) <= 1) as BA by now apply Rabs_le.
  assert (Rabs (rnd (dval x / dval s)) <= 1) as R1. { change 1 with (bpow radix2 0). apply rnd_abs_le; [lia|exact BA]. }
  assert (1 < big) as Hb. { unfold big. change 1 with (bpow radix2 0). apply bpow_lt. lia. }
  destruct (ddiv_ok x s Hx Hs ltac:(lra)) as (q & Eq & Hq & Vq); [lra|]. rewrite (div_sf _ _ _ Eq). split; [exact Hq|]. rewrite Vq.
  assert (eta0 <= u) as Het. { unfold eta0, u. replace (/ 9007199254740992) with (bpow radix2 (-53)) by exact (bpow_opp radix2 53). apply bpow_le. lia. }
  pose proof (rnd_err (dval x / dval s) u Het) as E. pose proof u_pos. nra.
Qed.
Lemma sqrt_near a A g : 0 < g -> 1 <= A <= 2 -> Rabs (a - A) <= 40 * u -> Rabs (g * g - a) <= 1000001 / 1000000000 * (g * g) ->
  Rabs (g - R_sqrt.sqrt A) <= 55 / 10 ^ 5 * R_sqrt.sqrt A.
Proof.
  intros Pg HA Ha Hg. set (q := R_sqrt.sqrt A). assert (q * q = A) as Eq by (apply R_sqrt.sqrt_sqrt; lra).
  assert (1 <= q) as Hq. { unfold q. rewrite <- sqrt_1. apply sqrt_le_1; lra. } rewrite <- Eq in *. unfold u in Ha. apply Rabs_le_inv in Ha, Hg. apply Rabs_le. split.
  - destruct (Rle_or_lt (q - 55 / 10 ^ 5 * q) g); [lra|]. assert (g * g <= ((1 - 55 / 10 ^ 5) * q) * ((1 - 55 / 10 ^ 5) * q)) by (apply Rmult_le_compat; lra). nra.
  - destruct (Rle_or_lt g (q + 55 / 10 ^ 5 * q)); [lra|]. assert (((1 + 55 / 10 ^ 5) * q) * ((1 + 55 / 10 ^ 5) * q) <= g * g) by (apply Rmult_le_compat; lra). nra.
Qed.
Lemma hyp_scale X Y S : 0 < S -> S = Rmax (Rabs X) (Rabs Y) ->
  let A := X / S * (X / S) + Y / S * (Y / S) in 1 <= A <= 2 /\ S * R_sqrt.sqrt A = R_sqrt.sqrt (X * X + Y * Y).
Proof.
  intros PS ES A. assert (A = (X * X + Y * Y) / (S * S)) as EA by (unfold A; field; lra).
  assert (S * S <= X * X + Y * Y <= 2 * (S * S)) as [B1 B2].
  { assert (X * X = Rabs X * Rabs X) as -> by (rewrite <- Rabs_mult; symmetry; apply Rabs_right; nra).
    assert (Y * Y = Rabs Y * Rabs Y) as -> by (rewrite <- Rabs_mult; symmetry; apply Rabs_right; nra).
    pose proof (Rabs_pos X). pose proof (Rabs_pos Y). unfold Rmax in ES. destruct (Rle_dec (Rabs X) (Rabs Y)); rewrite ES; nra. }
  split.
  - rewrite EA. assert (0 < S * S) by nra. split; apply (Rmult_le_reg_r (S * S)); try assumption; unfold Rdiv; rewrite Rmult_assoc, Rinv_l by lra; lra.
  - rewrite EA. rewrite <- (R_sqrt.sqrt_square S) at 1 by lra. rewrite <- sqrt_mult_alt by nra. f_equal. field. lra.
Qed.
Definition hyp (x y : R) : R := R_sqrt.sqrt (x * x + y * y).
Lemma hyp_0 x y : hyp x y = 0 -> x = 0 /\ y = 0.
Proof. unfold hyp. intros H. apply sqrt_eq_0 in H; [|nra]. split; nra. Qed.
Lemma hyp_ge x y : Rabs x <= hyp x y /\ Rabs y <= hyp x y.
Proof. unfold hyp. split; rewrite <- sqrt_Rsqr_abs; apply sqrt_le_1; unfold Rsqr; nra. Qed.
(** a number other than 0 is at least 2^-1074 *)
Lemma least x : is_number x -> dval x <> 0 -> 2 * eta0 <= Rabs (dval x).
Proof.
  intros Hx Nz. assert (2 * eta0 = bpow radix2 (-1074)) as ->.
  { unfold eta0. change (-1074)%Z with (1 + -1075)%Z. rewrite bpow_plus. f_equal. }
  destruct (abs_value x Hx) as [Ha Ea]. rewrite <- Ea. apply positive_min; [exact Ha|]. rewrite Ea. now apply Rabs_pos_lt.
Qed.
Lemma pos_sign p : 0 < dval p -> sign_of p = false.
Proof.
  intros P. destruct p as [[]|[]| |[] m e]; try reflexivity; exfalso; unfold dval in P; try lra.
  assert (0 < powerRZ 2 e) by (apply powerRZ_lt; lra). assert (0 < IZR (Zpos m)) by (apply IZR_lt; lia). nra.
Qed.
Lemma eta0_pos : 0 < eta0. Proof. apply bpow_gt_0. Qed.
Definition abs_err (M : R) : R := 56 / 10 ^ 5 * M + eta0.

Lemma p_abs_zero n x y : is_number x -> is_number y -> dval x = 0 -> dval y = 0 -> p_abs n x y = Value x.
Proof.
  intros Hx Hy Ex Ey. destruct (number_zero x Hx Ex) as [s ->]. destruct (number_zero y Hy Ey) as [s' ->]. destruct s, s'; reflexivity.
Qed.
Lemma p_abs_number x y : is_number x -> is_number y -> (dval x <> 0 \/ dval y <> 0) -> let M := hyp (dval x) (dval y) in
  exists r, returns (fun n => p_abs n x y) r /\
    ((is_number r /\ 0 < dval r /\ Rabs (dval r - M) <= abs_err M) \/ (r = S754_infinity false /\ big <= (1 + 56 / 10 ^ 5) * M)).
Proof.
  intros Hx Hy Hz M. destruct (max_value x y Hx Hy) as [Hs Es]. unfold p_abs. set (s := p_max (m_abs dbl x) (m_abs dbl y)) in *.
  set (X := dval x) in *. set (Y := dval y) in *. set (Sv := dval s) in *.
  assert (Rabs X <= Sv /\ Rabs Y <= Sv) as [LX LY] by (rewrite Es; split; [apply Rmax_l|apply Rmax_r]).
  assert (0 < Sv) as PS. { destruct Hz as [H|H]; apply Rabs_pos_lt in H; lra. }
  destruct (dint_ok 0 eq_refl) as [H0 E0]. rewrite deq by assumption. rewrite E0, Req_bool_false by (fold Sv; lra).
  destruct (ratio_near x s Hx Hs PS LX) as [Na Ba]. destruct (ratio_near y s Hy Hs PS LY) as [Nb Bb]. fold X Y Sv in Na, Nb, Ba, Bb.
  set (a := SFdiv dprec demax x s) in *. set (b := SFdiv dprec demax y s) in *.
  pose proof (near_mul_u 1 1 2 2 7 a a _ _ Na Na Ba Ba ltac:(lra) ltac:(lra) ltac:(lra) ltac:(lra) ltac:(lra)) as Naa.
  pose proof (near_mul_u 1 1 2 2 7 b b _ _ Nb Nb Bb Bb ltac:(lra) ltac:(lra) ltac:(lra) ltac:(lra) ltac:(lra)) as Nbb.
  destruct (hyp_scale X Y Sv PS Es) as [BA EM]. cbv zeta in BA, EM.
  assert (near (20 * u) (nadd dbl (nmul dbl a a) (nmul dbl b b)) (X / Sv * (X / Sv) + Y / Sv * (Y / Sv))) as [Hc Ec].
  { eapply (near_add_u 2 7 7); [exact Naa|exact Nbb|lra..]. }
  set (c := nadd dbl (nmul dbl a a) (nmul dbl b b)) in *. set (A := X / Sv * (X / Sv) + Y / Sv * (Y / Sv)) in *.
  assert (0 < dval c) as Pc. { apply Rabs_le_inv in Ec. unfold u in Ec. lra. }
  destruct (sqrt_double_ok c Hc Pc) as (g & [n Rg] & Hg & Pg & Eg).
  pose proof (sqrt_near (dval c) A (dval g) Pg BA ltac:(pose proof u_pos; lra) Eg) as Ng.
  set (q := R_sqrt.sqrt A) in *. fold (hyp X Y) in EM. fold M in EM.
  assert (Rabs (Sv * dval g - M) <= 55 / 10 ^ 5 * M) as Em.
  { rewrite <- EM. replace (Sv * dval g - Sv * q) with (Sv * (dval g - q)) by ring. rewrite Rabs_mult, (Rabs_right Sv) by lra. nra. }
  assert (0 < M) as PM. { rewrite <- EM. apply Rmult_lt_0_compat; [exact PS|apply sqrt_lt_R0; lra]. }
  assert (exists r, returns (fun n => obind (m_sqrt dbl n c) (fun q => Value (nmul dbl s q))) r /\ r = nmul dbl s g) as (r & Rr & Er).
  { eexists. split; [|reflexivity]. exists n. intros k Hk. cbv beta. rewrite (Rg k Hk). reflexivity. }
  exists r. split; [exact Rr|]. subst r.
  apply Rabs_le_inv in Em. assert (Rabs (Sv * dval g) = Sv * dval g) as Ea by (apply Rabs_right; lra).
  destruct (mul_any s g Hs Hg) as [(_ & Hm & Vm & _)|(Lm & Im)].
  - left. fold Sv in Vm. pose proof (rnd_err (Sv * dval g) eta0 (Rle_refl _)) as RE. pose proof u_pos as Hu. rewrite Ea in RE. apply Rabs_le_inv in RE.
    assert (u * (Sv * dval g) <= 1 / 10 ^ 6 * M) as Um by (unfold u; lra).
    assert (2 * eta0 <= M) as Le.
    { destruct Hz as [H|H]; [pose proof (least x Hx H)|pose proof (least y Hy H)]; destruct (hyp_ge X Y); unfold M; unfold X, Y in *; lra. }
    pose proof eta0_pos. split; [exact Hm|]. rewrite Vm. split; [lra|]. unfold abs_err. apply Rabs_le. lra.
  - right. split.
    + rewrite Im. now rewrite (pos_sign s PS), (pos_sign g Pg).
    + fold Sv in Lm. pose proof (big_round _ Lm) as Br. rewrite Ea in Br. assert (0 < big) by apply bpow_gt_0.
      assert (10 ^ 9 = 1000000000) as E9 by (simpl; lra). rewrite E9 in Br.
      assert ((1 - / 1000000000) * big <= (1 + 55 / 10 ^ 5) * M) by lra. assert (big <= (1 + / 900000000) * ((1 - / 1000000000) * big)) by nra. nra.
Qed.

(** ** abs of infinities and NaN *)
Lemma sqrt_nan n : m_sqrt dbl n S754_nan = Unfinished.
Proof. destruct (sqrt_or S754_nan eq_refl) as [[[_ H] _]|H]; [elim H|apply H]. Qed.
Lemma add_nan a : nadd dbl a S754_nan = S754_nan.
Proof. now destruct a as [[]|[]| |[] ? ?]. Qed.
Lemma p_abs_nan n y : p_abs n S754_nan y = Unfinished.
Proof.
  unfold p_abs. replace (p_max (m_abs dbl S754_nan) (m_abs dbl y)) with S754_nan by reflexivity. cbv zeta.
  change (n_eq dbl S754_nan (nint dbl 0)) with false. cbv iota. change (SFdiv dprec demax S754_nan S754_nan) with S754_nan.
  change (nmul dbl S754_nan S754_nan) with S754_nan. change (nadd dbl S754_nan (nmul dbl (SFdiv dprec demax y S754_nan) (SFdiv dprec demax y S754_nan))) with S754_nan.
  now rewrite sqrt_nan.
Qed.
Lemma p_abs_inf n s y : p_abs n (S754_infinity s) y = Unfinished.
Proof.
  unfold p_abs. replace (p_max (m_abs dbl (S754_infinity s)) (m_abs dbl y)) with (S754_infinity false) by (rewrite !abs_sf; now destruct s, y as [[]|[]| |[] ? ?]).
  cbv zeta. change (n_eq dbl (S754_infinity false) (nint dbl 0)) with false. cbv iota. change (SFdiv dprec demax (S754_infinity s) (S754_infinity false)) with S754_nan.
  change (nmul dbl S754_nan S754_nan) with S754_nan.
  change (nadd dbl S754_nan (nmul dbl (SFdiv dprec demax y (S754_infinity false)) (SFdiv dprec demax y (S754_infinity false)))) with S754_nan.
  now rewrite sqrt_nan.
Qed.
Lemma p_abs_y_inf n x s : is_number x -> p_abs n x (S754_infinity s) = Unfinished.
Proof.
  intros [_ Hx]. unfold p_abs.
  replace (p_max (m_abs dbl x) (m_abs dbl (S754_infinity s))) with (S754_infinity false) by (rewrite !abs_sf; destruct s, x as [[]|[]| |[] ? ?]; try reflexivity; elim Hx).
  cbv zeta. change (n_eq dbl (S754_infinity false) (nint dbl 0)) with false. cbv iota. change (SFdiv dprec demax (S754_infinity s) (S754_infinity false)) with S754_nan.
  change (nmul dbl S754_nan S754_nan) with S754_nan. now rewrite add_nan, sqrt_nan.
Qed.
Lemma p_abs_y_nan n x : is_number x -> dval x <> 0 -> p_abs n x S754_nan = Unfinished.
Proof.
  intros [_ Hx] Nz. unfold p_abs. destruct x as [s|s| |s m e]; [now elim Nz|elim Hx|elim Hx|]. rewrite abs_sf.
  replace (p_max (S754_finite false m e) (m_abs dbl S754_nan)) with (S754_finite false m e) by reflexivity. cbv zeta.
  change (n_eq dbl (S754_finite false m e) (nint dbl 0)) with false. cbv iota. change (SFdiv dprec demax S754_nan (S754_finite false m e)) with S754_nan.
  change (nmul dbl S754_nan S754_nan) with S754_nan. now rewrite add_nan, sqrt_nan.
Qed.
(** the exception *)
Lemma p_abs_zero_nan n s : p_abs n (S754_zero s) S754_nan = Value (S754_zero s).
Proof. now destruct s. Qed.
Lemma p_abs_special x y : is_double x -> is_double y -> ~ (is_number x /\ is_number y) ->
  (exists s, x = S754_zero s /\ y = S754_nan) \/ runs_forever (fun n => p_abs n x y).
Proof.
  intros Hx Hy H. destruct (double_cases x Hx) as [Nx|[[s ->]| ->]]; [|right; intros n; apply p_abs_inf|right; intros n; apply p_abs_nan].
  destruct (double_cases y Hy) as [Ny|[[s ->]| ->]]; [now elim H|right; intros n; now apply p_abs_y_inf|].
  destruct (Req_dec (dval x) 0) as [E|E]; [left|right; intros n; now apply p_abs_y_nan].
  destruct (number_zero x Nx E) as [s ->]. now exists s.
Qed.

(** ** Products with a sine or cosine *)
Lemma rnd_number x : is_number x -> rnd (dval x) = dval x.
Proof. intros H. apply rnd_id. now apply rnd_format. Qed.
Lemma mul_comm_val a b : Rabs (rnd (dval a * dval b)) < big -> is_number a -> is_number b -> dval (nmul dbl a b) = dval (nmul dbl b a).
Proof.
  intros L Ha Hb. destruct (dmul_ok a b Ha Hb L) as [_ ->]. rewrite Rmult_comm in L. destruct (dmul_ok b a Hb Ha L) as [_ ->]. now rewrite Rmult_comm.
Qed.
Lemma prod_unit a b A B d e K : is_number a -> is_number b -> -1 <= dval a <= 1 -> Rabs (dval a - A) <= d -> Rabs (dval b - B) <= e * K -> Rabs B <= K -> 0 <= e <= 1 ->
  (is_number (nmul dbl a b) /\ Rabs (dval (nmul dbl a b) - A * B) <= (e + d + 2 * u) * K + eta0) /\
  (is_number (nmul dbl b a) /\ Rabs (dval (nmul dbl b a) - B * A) <= (e + d + 2 * u) * K + eta0).
Proof.
  intros Ha Hb Ba Ea Eb BK He. pose proof (Rabs_pos B) as PB. assert (0 <= d) as Pd by (pose proof (Rabs_pos (dval a - A)); lra).
  assert (Rabs (dval a) <= 1) as La by now apply Rabs_le. pose proof (Rabs_pos (dval a)) as P2.
  assert (Rabs (dval a * dval b) <= Rabs (dval b)) as Lab by (rewrite Rabs_mult; pose proof (Rabs_pos (dval b)); nra).
  assert (Rabs (rnd (dval a * dval b)) < big) as Lb.
  { apply Rle_lt_trans with (Rabs (dval b)); [|now apply max_below]. apply Rabs_le. apply Rabs_le_inv in Lab.
    assert (rnd (Rabs (dval b)) = Rabs (dval b)) as E1 by (destruct (abs_value b Hb) as [Hab Eab]; rewrite <- Eab; now apply rnd_number).
    assert (rnd (- Rabs (dval b)) = - Rabs (dval b)) as E2 by (rewrite rnd_opp; now rewrite E1).
    split; [rewrite <- E2|rewrite <- E1]; apply rnd_le; lra. }
  assert (is_number (nmul dbl a b) /\ Rabs (dval (nmul dbl a b) - A * B) <= (e + d + 2 * u) * K + eta0) as [G1 G2].
  { destruct (dmul_ok a b Ha Hb Lb) as [Hm Vm]. split; [exact Hm|]. rewrite Vm.
    pose proof (rnd_err (dval a * dval b) eta0 (Rle_refl _)) as RE.
    assert (Rabs (dval b) <= 2 * K) as Bb. { pose proof (Rabs_triang (dval b - B) B) as T. replace (dval b - B + B) with (dval b) in T by ring. nra. }
    assert (Rabs (dval a * dval b - A * B) <= e * K + d * K) as E.
    { replace (dval a * dval b - A * B) with (dval a * (dval b - B) + B * (dval a - A)) by ring. eapply Rle_trans; [apply Rabs_triang|]. rewrite !Rabs_mult.
      apply Rplus_le_compat. { pose proof (Rabs_pos (dval b - B)). nra. } rewrite Rmult_comm. apply Rmult_le_compat; try apply Rabs_pos; assumption. }
    replace (rnd (dval a * dval b) - A * B) with ((rnd (dval a * dval b) - dval a * dval b) + (dval a * dval b - A * B)) by ring.
    eapply Rle_trans; [apply Rabs_triang|]. pose proof u_pos. assert (u * Rabs (dval a * dval b) <= u * (2 * K)) by (apply Rmult_le_compat_l; lra). lra. }
  split; [now split|]. rewrite (Rmult_comm B A). rewrite <- (mul_comm_val a b) by assumption. split; [|exact G2].
  rewrite Rmult_comm in Lb. now apply (dmul_ok b a).
Qed.

Lemma returns_bind {A B} (f : nat -> outcome A) (g : nat -> A -> outcome B) v w :
  returns f v -> returns (fun n => g n v) w -> returns (fun n => obind (f n) (g n)) w.
Proof. intros [n Hn] [k Hk]. exists (n + k)%nat. intros j Hj. rewrite (Hn j ltac:(lia)). simpl. apply Hk. lia. Qed.
Lemma returns_value {A} (v : A) : returns (fun _ => Value v) v.
Proof. now exists 0%nat. Qed.
Lemma obind_inv {A B} (o : outcome A) (g : A -> outcome B) w : obind o g = Value w -> exists v, o = Value v /\ g v = Value w.
Proof. destruct o as [v| |]; simpl; intros H; try discriminate. now exists v. Qed.

Definition sin_err (t : R) : R := 19 / 10 ^ 8 * (Rabs t + 4) + 12 / 10 ^ 12 * (Rabs t + 4) ^ 2.
Definition cos_err (t : R) : R := 2 / 10 ^ 7 * (Rabs t + 6) + 13 / 10 ^ 12 * (Rabs t + 6) ^ 2.
Lemma errs_pos t : 0 <= sin_err t /\ 0 <= cos_err t.
Proof. unfold sin_err, cos_err. pose proof (Rabs_pos t). split; nra. Qed.

Definition p_polar (n : nat) (r t : spec_float) : outcome (spec_float * spec_float) :=
  obind (m_cos dbl n t) (fun c => obind (m_sin dbl n t) (fun s => Value (nmul dbl r c, nmul dbl r s))).
Definition p_exp (n : nat) (x y : spec_float) := obind (m_exp dbl n x) (fun e => p_polar n e y).
Definition p_sin (n : nat) (x y : spec_float) : outcome (spec_float * spec_float) :=
  obind (m_sin dbl n x) (fun a => obind (m_cosh dbl n y) (fun b => obind (m_cos dbl n x) (fun c => obind (m_sinh dbl n y) (fun d =>
    Value (nmul dbl a b, nmul dbl c d))))).
Definition p_cos (n : nat) (x y : spec_float) : outcome (spec_float * spec_float) :=
  obind (m_cos dbl n x) (fun a => obind (m_cosh dbl n y) (fun b => obind (m_sin dbl n x) (fun c => obind (m_sinh dbl n y) (fun d =>
    Value (nmul dbl a b, nmul dbl (nopp dbl c) d))))).
Definition p_sinh (n : nat) (x y : spec_float) : outcome (spec_float * spec_float) :=
  obind (m_sinh dbl n x) (fun a => obind (m_cos dbl n y) (fun b => obind (m_cosh dbl n x) (fun c => obind (m_sin dbl n y) (fun d =>
    Value (nmul dbl a b, nmul dbl c d))))).
Definition p_cosh (n : nat) (x y : spec_float) : outcome (spec_float * spec_float) :=
  obind (m_cosh dbl n x) (fun a => obind (m_cos dbl n y) (fun b => obind (m_sinh dbl n x) (fun c => obind (m_sin dbl n y) (fun d =>
    Value (nmul dbl a b, nmul dbl c d))))).

Lemma p_polar_ok r t K B e : is_number r -> is_number t -> Rabs (dval r - B) <= e * K -> Rabs B <= K -> 0 <= e <= 1 ->
  exists re im, returns (fun n => p_polar n r t) (re, im) /\ is_number re /\ is_number im /\
    Rabs (dval re - B * cos (dval t)) <= (e + cos_err (dval t) + 2 * u) * K + eta0 /\
    Rabs (dval im - B * sin (dval t)) <= (e + sin_err (dval t) + 2 * u) * K + eta0.
Proof.
  intros Hr Ht EB BK He. destruct (cos_double t Ht) as (c & Rc & Hc & Bc & Ec). destruct (sin_double t Ht) as (s & Rs & Hs & Bs & Es).
  destruct (prod_unit c r _ B _ e K Hc Hr Bc Ec EB BK He) as [_ [H1 H2]]. destruct (prod_unit s r _ B _ e K Hs Hr Bs Es EB BK He) as [_ [H3 H4]].
  exists (nmul dbl r c), (nmul dbl r s). split; [|exact (conj H1 (conj H3 (conj H2 H4)))].
  unfold p_polar. eapply returns_bind; [exact Rc|]. cbv beta. eapply returns_bind; [exact Rs|]. apply returns_value.
Qed.
Lemma tiny_val : tiny = / 281474976710656. Proof. reflexivity. Qed.
Lemma p_exp_ok x y : is_number x -> is_number y -> -710 < dval x <= 1419 / 2 ->
  exists re im, returns (fun n => p_exp n x y) (re, im) /\ is_number re /\ is_number im /\
    Rabs (dval re - exp (dval x) * cos (dval y)) <= (81 / 10 ^ 6 + cos_err (dval y)) * exp (dval x) /\
    Rabs (dval im - exp (dval x) * sin (dval y)) <= (81 / 10 ^ 6 + sin_err (dval y)) * exp (dval x).
Proof.
  intros Hx Hy Bx. destruct (exp_double x Hx Bx) as (e & Re & He & Ee). set (E := exp (dval x)) in *. assert (0 < E) as PE by apply exp_pos.
  destruct (p_polar_ok e y E E (8 / 10 ^ 5) He Hy Ee) as (re & im & R & H1 & H2 & H3 & H4); [rewrite Rabs_right; lra|lra|].
  assert (eta0 <= tiny * E) as Et by (apply eta_exp; lra). rewrite tiny_val in Et. unfold u in H3, H4.
  exists re, im. split; [unfold p_exp; eapply returns_bind; [exact Re|exact R]|]. split; [exact H1|]. split; [exact H2|]. split; lra.
Qed.
Lemma cosh_sinh t : 1 <= cosh t /\ Rabs (sinh t) <= cosh t.
Proof.
  split; [apply cosh_1|]. unfold cosh, sinh. pose proof (exp_pos t) as P1. pose proof (exp_pos (- t)) as P2. apply Rabs_le. lra.
Qed.
Definition ch_err (t : R) : R := 61 / 10 ^ 5 + 2 / 10 ^ 7 * Rabs t.
Definition sh_err (t : R) : R := 18 / 10 ^ 8 * (Rabs t + 1).
Lemma eta0_tiny K : 1 <= K -> eta0 <= / 10 ^ 10 * K.
Proof.
  intros H. apply Rle_trans with (/ 10 ^ 10 * 1); [|apply Rmult_le_compat_l; lra].
  apply Rle_trans with u; [unfold eta0, u; replace (/ 9007199254740992) with (bpow radix2 (-53)) by exact (bpow_opp radix2 53); apply bpow_le; lia|unfold u; lra].
Qed.
(** products of a sine or cosine of [x] with cosh or sinh of [y] *)
Lemma trig_hyp a A d y v : is_number a -> -1 <= dval a <= 1 -> Rabs (dval a - A) <= d -> is_number y -> Rabs (dval y) <= 355 -> is_number v -> let K := cosh (dval y) in
  (within ((6 / 10000 + 2 / 10 ^ 7 * Rabs (dval y)) * K) (dval v) K ->
    (is_number (nmul dbl a v) /\ Rabs (dval (nmul dbl a v) - A * K) <= (ch_err (dval y) + d) * K) /\
    (is_number (nmul dbl v a) /\ Rabs (dval (nmul dbl v a) - K * A) <= (ch_err (dval y) + d) * K)) /\
  (within (18 / 10 ^ 8 * Rabs (dval y) * K) (dval v) (sinh (dval y)) ->
    (is_number (nmul dbl a v) /\ Rabs (dval (nmul dbl a v) - A * sinh (dval y)) <= (sh_err (dval y) + d) * K) /\
    (is_number (nmul dbl v a) /\ Rabs (dval (nmul dbl v a) - sinh (dval y) * A) <= (sh_err (dval y) + d) * K)).
Proof.
  intros Ha Ba Ea Hy By Hv K. destruct (cosh_sinh (dval y)) as [K1 K2]. fold K in K1, K2. pose proof (eta0_tiny K K1) as Et. pose proof (Rabs_pos (dval y)) as P.
  assert (2 * u * K <= / 10 ^ 10 * K) as Eu by (apply Rmult_le_compat_r; [lra|unfold u; lra]). split; intros Ev.
  - destruct (prod_unit a v A K d (6 / 10000 + 2 / 10 ^ 7 * Rabs (dval y)) K Ha Hv Ba Ea Ev) as [[H1 H2] [H3 H4]]; [rewrite Rabs_right; lra|lra|].
    unfold ch_err. split; (split; [assumption|]); lra.
  - destruct (prod_unit a v A (sinh (dval y)) d (18 / 10 ^ 8 * Rabs (dval y)) K Ha Hv Ba Ea Ev) as [[H1 H2] [H3 H4]]; [exact K2|lra|].
    unfold sh_err. split; (split; [assumption|]); lra.
Qed.
Lemma p_sin_ok x y : is_number x -> is_number y -> Rabs (dval y) <= 355 ->
  exists re im, returns (fun n => p_sin n x y) (re, im) /\ is_number re /\ is_number im /\
    Rabs (dval re - sin (dval x) * cosh (dval y)) <= (ch_err (dval y) + sin_err (dval x)) * cosh (dval y) /\
    Rabs (dval im - cos (dval x) * sinh (dval y)) <= (sh_err (dval y) + cos_err (dval x)) * cosh (dval y).
Proof.
  intros Hx Hy By. destruct (cos_double x Hx) as (c & Rc & Hc & Bc & Ec). destruct (sin_double x Hx) as (s & Rs & Hs & Bs & Es).
  destruct (cosh_double y Hy By) as (ch & Rch & Hch & _ & Ech). destruct (sinh_double y Hy ltac:(lra)) as (sh & Rsh & Hsh & Esh).
  destruct (trig_hyp s _ _ y ch Hs Bs Es Hy By Hch) as [T1 _]. destruct (T1 Ech) as [[H1 H2] _].
  destruct (trig_hyp c _ _ y sh Hc Bc Ec Hy By Hsh) as [_ T2]. destruct (T2 Esh) as [[H3 H4] _].
  exists (nmul dbl s ch), (nmul dbl c sh). split; [|exact (conj H1 (conj H3 (conj H2 H4)))].
  unfold p_sin. eapply returns_bind; [exact Rs|]. eapply returns_bind; [exact Rch|]. eapply returns_bind; [exact Rc|]. eapply returns_bind; [exact Rsh|]. apply returns_value.
Qed.
Lemma p_cos_ok x y : is_number x -> is_number y -> Rabs (dval y) <= 355 ->
  exists re im, returns (fun n => p_cos n x y) (re, im) /\ is_number re /\ is_number im /\
    Rabs (dval re - cos (dval x) * cosh (dval y)) <= (ch_err (dval y) + cos_err (dval x)) * cosh (dval y) /\
    Rabs (dval im - - sin (dval x) * sinh (dval y)) <= (sh_err (dval y) + sin_err (dval x)) * cosh (dval y).
Proof.
  intros Hx Hy By. destruct (cos_double x Hx) as (c & Rc & Hc & Bc & Ec). destruct (sin_double x Hx) as (s & Rs & Hs & Bs & Es).
  destruct (cosh_double y Hy By) as (ch & Rch & Hch & _ & Ech). destruct (sinh_double y Hy ltac:(lra)) as (sh & Rsh & Hsh & Esh).
  destruct (dopp_ok s Hs) as [Ho Eo].
  assert (Rabs (dval (nopp dbl s) - - sin (dval x)) <= sin_err (dval x)) as Eo2.
  { rewrite Eo. replace (- dval s - - sin (dval x)) with (- (dval s - sin (dval x))) by ring. rewrite Rabs_Ropp. exact Es. }
  destruct (trig_hyp c _ _ y ch Hc Bc Ec Hy By Hch) as [T1 _]. destruct (T1 Ech) as [[H1 H2] _].
  destruct (trig_hyp (nopp dbl s) _ _ y sh Ho ltac:(rewrite Eo; lra) Eo2 Hy By Hsh) as [_ T2]. destruct (T2 Esh) as [[H3 H4] _].
  exists (nmul dbl c ch), (nmul dbl (nopp dbl s) sh). split; [|exact (conj H1 (conj H3 (conj H2 H4)))].
  unfold p_cos. eapply returns_bind; [exact Rc|]. eapply returns_bind; [exact Rch|]. eapply returns_bind; [exact Rs|]. eapply returns_bind; [exact Rsh|]. apply returns_value.
Qed.
Lemma p_sinh_ok x y : is_number x -> is_number y -> Rabs (dval x) <= 355 ->
  exists re im, returns (fun n => p_sinh n x y) (re, im) /\ is_number re /\ is_number im /\
    Rabs (dval re - sinh (dval x) * cos (dval y)) <= (sh_err (dval x) + cos_err (dval y)) * cosh (dval x) /\
    Rabs (dval im - cosh (dval x) * sin (dval y)) <= (ch_err (dval x) + sin_err (dval y)) * cosh (dval x).
Proof.
  intros Hx Hy By. destruct (cos_double y Hy) as (c & Rc & Hc & Bc & Ec). destruct (sin_double y Hy) as (s & Rs & Hs & Bs & Es).
  destruct (cosh_double x Hx By) as (ch & Rch & Hch & _ & Ech). destruct (sinh_double x Hx ltac:(lra)) as (sh & Rsh & Hsh & Esh).
  destruct (trig_hyp s _ _ x ch Hs Bs Es Hx By Hch) as [T1 _]. destruct (T1 Ech) as [_ [H3 H4]].
  destruct (trig_hyp c _ _ x sh Hc Bc Ec Hx By Hsh) as [_ T2]. destruct (T2 Esh) as [_ [H1 H2]].
  exists (nmul dbl sh c), (nmul dbl ch s). split; [|exact (conj H1 (conj H3 (conj H2 H4)))].
  unfold p_sinh. eapply returns_bind; [exact Rsh|]. eapply returns_bind; [exact Rc|]. eapply returns_bind; [exact Rch|]. eapply returns_bind; [exact Rs|]. apply returns_value.
Qed.
Lemma p_cosh_ok x y : is_number x -> is_number y -> Rabs (dval x) <= 355 ->
  exists re im, returns (fun n => p_cosh n x y) (re, im) /\ is_number re /\ is_number im /\
    Rabs (dval re - cosh (dval x) * cos (dval y)) <= (ch_err (dval x) + cos_err (dval y)) * cosh (dval x) /\
    Rabs (dval im - sinh (dval x) * sin (dval y)) <= (sh_err (dval x) + sin_err (dval y)) * cosh (dval x).
Proof.
  intros Hx Hy By. destruct (cos_double y Hy) as (c & Rc & Hc & Bc & Ec). destruct (sin_double y Hy) as (s & Rs & Hs & Bs & Es).
  destruct (cosh_double x Hx By) as (ch & Rch & Hch & _ & Ech). destruct (sinh_double x Hx ltac:(lra)) as (sh & Rsh & Hsh & Esh).
  destruct (trig_hyp c _ _ x ch Hc Bc Ec Hx By Hch) as [T1 _]. destruct (T1 Ech) as [_ [H1 H2]].
  destruct (trig_hyp s _ _ x sh Hs Bs Es Hx By Hsh) as [_ T2]. destruct (T2 Esh) as [_ [H3 H4]].
  exists (nmul dbl ch c), (nmul dbl sh s). split; [|exact (conj H1 (conj H3 (conj H2 H4)))].
  unfold p_cosh. eapply returns_bind; [exact Rch|]. eapply returns_bind; [exact Rc|]. eapply returns_bind; [exact Rsh|]. eapply returns_bind; [exact Rs|]. apply returns_value.
Qed.
(** where they never return *)
Lemma forever_never {A} (f : nat -> outcome A) : runs_forever f -> never_returns f.
Proof. intros H n v. now rewrite H. Qed.
Ltac never H := intros n w E; repeat (apply obind_inv in E as (? & ? & E)); eapply (H n); eassumption.
Lemma p_sin_never x y : never_returns (fun n => m_cosh dbl n y) \/ never_returns (fun n => m_sin dbl n x) -> never_returns (fun n => p_sin n x y).
Proof. intros [H|H]; never H. Qed.
Lemma p_cos_never x y : never_returns (fun n => m_cosh dbl n y) \/ never_returns (fun n => m_sin dbl n x) -> never_returns (fun n => p_cos n x y).
Proof. intros [H|H]; never H. Qed.
Lemma p_sinh_never x y : never_returns (fun n => m_cosh dbl n x) \/ never_returns (fun n => m_sin dbl n y) -> never_returns (fun n => p_sinh n x y).
Proof. intros [H|H]; never H. Qed.
Lemma p_cosh_never x y : never_returns (fun n => m_cosh dbl n x) \/ never_returns (fun n => m_sin dbl n y) -> never_returns (fun n => p_cosh n x y).
Proof. intros [H|H]; never H. Qed.
Lemma p_polar_never r t : never_returns (fun n => m_sin dbl n t) -> never_returns (fun n => p_polar n r t).
Proof. intros H; never H. Qed.
Lemma p_exp_never x y : never_returns (fun n => m_sin dbl n y) -> never_returns (fun n => p_exp n x y).
Proof. intros H n w E. unfold p_exp, p_polar in E. repeat (apply obind_inv in E as (? & ? & E)); eapply (H n); eassumption. Qed.

(** ** log *)
Definition p_log (n : nat) (x y : spec_float) : outcome (spec_float * spec_float) :=
  obind (p_abs n x y) (fun a => obind (m_log dbl n a) (fun l => obind (m_atan2 dbl n y x) (fun t => Value (l, t)))).
Lemma ln_near r M e : 0 < M -> 0 <= e <= / 1000 -> Rabs (r - M) <= e * M -> Rabs (ln r - ln M) <= 1002 / 1000 * e.
Proof.
  intros PM He H. apply Rabs_le_inv in H. assert ((1 - e) * M <= r <= (1 + e) * M) as B by lra. assert (0 < r) as Pr by nra.
  assert (forall z, 0 < z -> ln z <= z - 1) as L. { intros z Pz. pose proof (exp_ineq1_le (ln z)) as H1. rewrite exp_ln in H1 by exact Pz. lra. }
  assert (ln r - ln M = ln (r / M)) as E1 by (rewrite ln_div; lra). assert (ln M - ln r = ln (M / r)) as E2 by (rewrite ln_div; lra).
  assert (r / M <= 1 + e). { apply (Rmult_le_reg_r M); [lra|]. unfold Rdiv. rewrite Rmult_assoc, Rinv_l; lra. }
  assert (M / r <= 1 + 1002 / 1000 * e). { apply (Rmult_le_reg_r r); [lra|]. unfold Rdiv. rewrite Rmult_assoc, Rinv_l by lra. nra. }
  assert (0 < r / M) by (apply Rdiv_lt_0_compat; lra). assert (0 < M / r) by (apply Rdiv_lt_0_compat; lra).
  pose proof (L (r / M) ltac:(lra)). pose proof (L (M / r) ltac:(lra)). apply Rabs_le. lra.
Qed.
Lemma p_log_ok x y t : is_number x -> is_number y -> angle t (dval x) (dval y) -> let M := hyp (dval x) (dval y) in
  powerRZ 2 (-1022) <= M <= powerRZ 2 1023 ->
  exists re im, returns (fun n => p_log n x y) (re, im) /\ is_number re /\ is_number im /\
    Rabs (dval re - ln M) <= 17 / 10 ^ 4 /\ Rabs (dval im - t) <= 56 / 10 ^ 6.
Proof.
  intros Hx Hy Ha M [L U]. rewrite <- (bpow_powerRZ radix2) in L, U. pose proof (bpow_gt_0 radix2 (-1022)) as P0.
  assert (dval x <> 0 \/ dval y <> 0) as Nz.
  { destruct (Req_dec (dval x) 0) as [E|E]; [|now left]. right. intros E2. unfold M, hyp in L. rewrite E, E2, Rmult_0_l, Rplus_0_l, sqrt_0 in L. lra. }
  destruct (p_abs_number x y Hx Hy Nz) as (r & Rr & [(Hr & Pr & Er)|(_ & Er)]).
  2:{ exfalso. fold M in Er. unfold big in Er. change 1024%Z with (1 + 1023)%Z in Er. rewrite bpow_plus in Er. change (bpow radix2 1) with 2 in Er. lra. }
  fold M in Er. unfold abs_err in Er.
  assert (eta0 <= / 10 ^ 10 * M) as Et.
  { apply Rle_trans with (/ 10 ^ 10 * bpow radix2 (-1022)); [|apply Rmult_le_compat_l; lra].
    unfold eta0. change (-1075)%Z with (-53 + -1022)%Z. rewrite bpow_plus. apply Rmult_le_compat_r; [lra|].
    replace (bpow radix2 (-53)) with (/ 9007199254740992) by (symmetry; exact (bpow_opp radix2 53)). lra. }
  pose proof (ln_near (dval r) M (57 / 10 ^ 5) ltac:(lra) ltac:(lra) ltac:(lra)) as Ln.
  destruct (log_double r Hr Pr) as (l & Rl & Hl & El). destruct (atan2_double y x t Hy Hx Ha) as (v & Rv & Hv & Ev & _).
  exists l, v. split.
  - unfold p_log. eapply returns_bind; [exact Rr|]. eapply returns_bind; [exact Rl|]. eapply returns_bind; [exact Rv|]. apply returns_value.
  - split; [exact Hl|]. split; [exact Hv|]. split; [|exact Ev]. unfold within in El. apply Rabs_le_inv in El, Ln. apply Rabs_le. lra.
Qed.
Lemma p_log_zero s s' : returns (fun n => p_log n (S754_zero s) (S754_zero s')) (S754_infinity true, S754_zero false).
Proof.
  unfold p_log. eapply returns_bind. { exists 0%nat. intros n _. apply p_abs_zero; (reflexivity || now split). }
  eapply returns_bind; [apply log_zero|]. eapply returns_bind; [apply atan2_zero|]. apply returns_value.
Qed.
Lemma p_log_over x y : is_number x -> is_number y -> powerRZ 2 1024 * (1001 / 1000) <= hyp (dval x) (dval y) -> forall w, ~ returns (fun n => p_log n x y) w.
Proof.
  intros Hx Hy L. rewrite <- (bpow_powerRZ radix2) in L. fold big in L. assert (1 < big) as Pb. { unfold big. change 1 with (bpow radix2 0). apply bpow_lt. lia. }
  assert (dval x <> 0 \/ dval y <> 0) as Nz.
  { destruct (Req_dec (dval x) 0) as [E|E]; [|now left]. right. intros E2. unfold hyp in L. rewrite E, E2, Rmult_0_l, Rplus_0_l, sqrt_0 in L. lra. }
  destruct (p_abs_number x y Hx Hy Nz) as (r & [n Rr] & [(Hr & Pr & Er)|(E & _)]).
  - exfalso. unfold abs_err in Er. pose proof (max_below r Hr) as B. apply Rabs_le_inv in Er. rewrite Rabs_right in B by lra.
    pose proof (eta0_tiny 1 ltac:(lra)). lra.
  - intros w [k Ew]. specialize (Ew (n + k)%nat ltac:(lia)). specialize (Rr (n + k)%nat ltac:(lia)). cbv beta in Ew, Rr. unfold p_log in Ew. rewrite Rr, E in Ew.
    simpl obind in Ew. pose proof (log_inf (n + k)%nat) as L2. cbv beta in L2. rewrite L2 in Ew. discriminate.
Qed.
Lemma p_log_number x y t : is_number x -> is_number y -> angle t (dval x) (dval y) -> hyp (dval x) (dval y) <= powerRZ 2 1023 ->
  exists re im, returns (fun n => p_log n x y) (re, im) /\ is_number re /\ is_number im /\ Rabs (dval im - t) <= 56 / 10 ^ 6.
Proof.
  intros Hx Hy Ha U. rewrite <- (bpow_powerRZ radix2) in U. pose proof (bpow_gt_0 radix2 1023) as P0.
  assert (dval x <> 0 \/ dval y <> 0) as Nz.
  { destruct (Req_dec (dval x) 0) as [E|E]; [|now left]. right. intros E2. destruct Ha as (_ & d & Pd & E3 & E4). rewrite E in E3. rewrite E2 in E4.
    pose proof (sin2_cos2 t) as SC. unfold Rsqr in SC. assert (cos t = 0) by nra. assert (sin t = 0) by nra. nra. }
  destruct (p_abs_number x y Hx Hy Nz) as (r & Rr & [(Hr & Pr & Er)|(_ & Er)]).
  2:{ exfalso. unfold big in Er. change 1024%Z with (1 + 1023)%Z in Er. rewrite bpow_plus in Er. change (bpow radix2 1) with 2 in Er. lra. }
  destruct (log_double r Hr Pr) as (l & Rl & Hl & El). destruct (atan2_double y x t Hy Hx Ha) as (v & Rv & Hv & Ev & _).
  exists l, v. split; [|exact (conj Hl (conj Hv Ev))].
  unfold p_log. eapply returns_bind; [exact Rr|]. eapply returns_bind; [exact Rl|]. eapply returns_bind; [exact Rv|]. apply returns_value.
Qed.
(** exp out of range *)
Lemma zero_mul s c : is_number c -> exists s', nmul dbl (S754_zero s) c = S754_zero s'.
Proof. intros [_ H]. destruct c as [s'|s'| |s' m e]; [now exists (xorb s s')|elim H|elim H|now exists (xorb s s')]. Qed.
Lemma p_exp_under x y : is_number x -> is_number y -> -2147483647 < dval x <= -710 ->
  exists s s', returns (fun n => p_exp n x y) (S754_zero s, S754_zero s').
Proof.
  intros Hx Hy B. destruct (cos_double y Hy) as (c & Rc & Hc & _). destruct (sin_double y Hy) as (s & Rs & Hs & _).
  destruct (zero_mul false c Hc) as [s1 E1]. destruct (zero_mul false s Hs) as [s2 E2]. exists s1, s2. rewrite <- E1, <- E2.
  unfold p_exp, p_polar. eapply returns_bind; [now apply exp_under|]. eapply returns_bind; [exact Rc|]. eapply returns_bind; [exact Rs|]. apply returns_value.
Qed.
Definition inf_times (c : R) (v : spec_float) : Prop :=
  (0 < c -> v = S754_infinity false) /\ (c < 0 -> v = S754_infinity true) /\ (c = 0 -> v = S754_nan).
Lemma inf_mul c : is_number c -> inf_times (dval c) (nmul dbl (S754_infinity false) c).
Proof.
  intros [_ H]. destruct c as [s'|s'| |s' m e]; [|elim H|elim H|]. { unfold inf_times. simpl dval. split; [|split]; intros; [lra|lra|now destruct s']. }
  assert (0 < IZR (Zpos m) * powerRZ 2 e) by (apply Rmult_lt_0_compat; [apply IZR_lt; lia|apply powerRZ_lt; lra]).
  unfold inf_times. destruct s'; unfold dval; (split; [|split]); intros; try reflexivity; exfalso; lra.
Qed.
Lemma p_exp_over x y c s : is_number x -> is_number y -> 1419 / 2 < dval x < 2147483647 ->
  returns (fun n => m_cos dbl n y) c -> returns (fun n => m_sin dbl n y) s ->
  exists re im, returns (fun n => p_exp n x y) (re, im) /\ inf_times (dval c) re /\ inf_times (dval s) im.
Proof.
  intros Hx Hy B Rc Rs. destruct (cos_double y Hy) as (c' & Rc' & Hc & _). destruct (sin_double y Hy) as (s' & Rs' & Hs & _).
  assert (c' = c) as ->. { destruct Rc as [n1 R1], Rc' as [n2 R2]. specialize (R1 (n1 + n2)%nat ltac:(lia)). specialize (R2 (n1 + n2)%nat ltac:(lia)). cbv beta in R1, R2. rewrite R1 in R2. now injection R2. }
  assert (s' = s) as ->. { destruct Rs as [n1 R1], Rs' as [n2 R2]. specialize (R1 (n1 + n2)%nat ltac:(lia)). specialize (R2 (n1 + n2)%nat ltac:(lia)). cbv beta in R1, R2. rewrite R1 in R2. now injection R2. }
  exists (nmul dbl (S754_infinity false) c), (nmul dbl (S754_infinity false) s). split; [|split; now apply inf_mul].
  unfold p_exp, p_polar. eapply returns_bind; [now apply exp_over|]. eapply returns_bind; [exact Rc|]. eapply returns_bind; [exact Rs|]. apply returns_value.
Qed.
Lemma p_exp_undef n x y : is_double x -> ~ is_number x \/ 2147483649 <= Rabs (dval x) -> p_exp n x y = Undefined.
Proof. intros Hx H. unfold p_exp. now rewrite (exp_out x Hx H). Qed.
