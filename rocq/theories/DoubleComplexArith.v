(** Sums, products and quotients of complex numbers with rounding *)
From Coq Require Import ZArith Reals Lra Lia Psatz.
From Coq.Floats Require Import SpecFloat.
From Flocq Require Import Core BinarySingleNaN Plus_error Relative.
From Verif Require Import ModelCmath SpecCmath DoubleArith DoubleRound DoubleSqrt DoubleNear DoubleExp DoublePow.
Open Scope R_scope.

(** ** Sums: no underflow *)
Lemma rnd_plus_err x y : is_number x -> is_number y -> Rabs (rnd (dval x + dval y) - (dval x + dval y)) <= u * Rabs (dval x + dval y).
Proof.
  intros Hx Hy. pose proof (rnd_format x Hx) as Fx. pose proof (rnd_format y Hy) as Fy.
  destruct (@FLT_plus_error_N_ex radix2 (-1074) 53 Hprec (fun x => negb (Z.even x)) (dval x) (dval y) Fx Fy) as (e & He & E).
  change (rnd (dval x + dval y) = (dval x + dval y) * (1 + e)) in E. rewrite E.
  replace ((dval x + dval y) * (1 + e) - (dval x + dval y)) with (e * (dval x + dval y)) by ring.
  rewrite Rabs_mult. apply Rmult_le_compat_r; [apply Rabs_pos|]. eapply Rle_trans; [exact He|].
  assert (u_ro radix2 53 = u) as ->.
  { unfold Relative.u_ro. change (bpow radix2 (- (53) + 1)) with (/ 4503599627370496). unfold u. lra. }
  pose proof u_pos as Pu. apply Rmult_le_reg_r with (1 + u); [lra|]. replace (u / (1 + u) * (1 + u)) with u by (field; lra). nra.
Qed.
Definition negative (s : R) : bool := Rlt_bool s 0.
Lemma add_any x y : is_number x -> is_number y ->
  (Rabs (rnd (dval x + dval y)) < big /\ is_number (nadd dbl x y) /\ dval (nadd dbl x y) = rnd (dval x + dval y)) \/
  (big <= Rabs (rnd (dval x + dval y)) /\ nadd dbl x y = S754_infinity (negative (dval x + dval y))).
Proof.
  intros Hx Hy. destruct (Rlt_or_le (Rabs (rnd (dval x + dval y))) big) as [L|L].
  - left. split; [exact L|]. now apply dadd_ok.
  - right. split; [exact L|]. destruct (number_B2SF x Hx) as (bx & <- & Fx & Ex). destruct (number_B2SF y Hy) as (by_ & <- & Fy & Ey).
    rewrite <- Ex, <- Ey in *. change (nadd dbl) with (SFadd 53 1024). rewrite add_equiv.
    pose proof (Bplus_correct 53 1024 Hprec Hmax mode_NE bx by_ Fx Fy) as H. simpl round_mode in H. unfold rnd, big in L.
    rewrite Rlt_bool_false in H by exact L. destruct H as [H1 H2]. rewrite H1. cbn. f_equal.
    assert (forall b : binary_float 53 1024, is_finite b = true -> if Bsign b then B2R b <= 0 else 0 <= B2R b) as Hs.
    { intros [s|s| |s m e B] F; try discriminate F; cbn [Bsign B2R]; [destruct s; lra|]. unfold F2R. cbn [Fnum Fexp].
      pose proof (bpow_gt_0 radix2 e). destruct s; cbn [cond_Zopp].
      - assert (IZR (Z.opp (Zpos m)) < 0) by (apply IZR_lt; lia). nra.
      - assert (0 < IZR (Zpos m)) by (apply IZR_lt; lia). nra. }
    pose proof (Hs _ Fx) as Sx. pose proof (Hs _ Fy) as Sy. rewrite <- H2 in Sy. unfold negative. destruct (Bsign bx).
    + rewrite Rlt_bool_true; [reflexivity|]. destruct (Req_dec (B2R bx + B2R by_) 0) as [Z|Z]; [|lra]. exfalso.
      rewrite Z, round_0, Rabs_R0 in L by typeclasses eauto. pose proof (bpow_gt_0 radix2 1024). lra.
    + rewrite Rlt_bool_false; [reflexivity|lra].
Qed.
Lemma sub_add x y : nsub dbl x y = nadd dbl x (nopp dbl y).
Proof.
  simpl. unfold SFsub, SFadd. destruct x as [[]|[]| |[] m e], y as [[]|[]| |[] m' e']; try reflexivity.
Qed.

(** ** Products *)
Lemma mul_near x y : is_number x -> is_number y -> Rabs (dval x * dval y) < bpow radix2 1023 ->
  is_number (nmul dbl x y) /\ Rabs (dval (nmul dbl x y) - dval x * dval y) <= u * Rabs (dval x * dval y) + eta0.
Proof.
  intros Hx Hy L. destruct (dmul_ok x y Hx Hy (bpow_big _ L)) as [H E]. split; [exact H|]. rewrite E. apply rnd_err. apply Rle_refl.
Qed.
Definition eps : R := 2 * u + u * u.
Lemma eta0_pos : 0 < eta0. Proof. apply bpow_gt_0. Qed.
Lemma eta0_1 : eta0 <= 1. Proof. apply (bpow_le radix2 (-1075) 0). lia. Qed.
Lemma top_1022 : bpow radix2 1023 = 2 * bpow radix2 1022 /\ 8 <= bpow radix2 1022.
Proof. split; [exact (bpow_plus radix2 1 1022)|]. apply (bpow_le radix2 3 1022). lia. Qed.
Lemma sum_near p q P Q M : is_number p -> is_number q -> Rabs P + Rabs Q <= M -> M <= bpow radix2 1022 ->
  Rabs (dval p - P) <= u * Rabs P + eta0 -> Rabs (dval q - Q) <= u * Rabs Q + eta0 ->
  near (eps * M + 3 * eta0) (nadd dbl p q) (P + Q).
Proof.
  intros Hp Hq HM LM Ep Eq. pose proof eta0_pos as He. pose proof eta0_1 as He1. pose proof top_1022 as [T1 T2]. pose proof u_pos as Hu.
  assert (Rabs ((dval p + dval q) - (P + Q)) <= u * M + 2 * eta0) as E1.
  { replace ((dval p + dval q) - (P + Q)) with ((dval p - P) + (dval q - Q)) by ring. eapply Rle_trans; [apply Rabs_triang|].
    assert (u * (Rabs P + Rabs Q) <= u * M) by (apply Rmult_le_compat_l; lra). lra. }
  assert (Rabs (dval p + dval q) <= M + u * M + 2 * eta0) as E2.
  { replace (dval p + dval q) with (((dval p + dval q) - (P + Q)) + (P + Q)) by ring. eapply Rle_trans; [apply Rabs_triang|].
    pose proof (Rabs_triang P Q). lra. }
  assert (u * M <= / 4 * M) as E3. { apply Rmult_le_compat_r; [pose proof (Rabs_pos P); pose proof (Rabs_pos Q); lra|unfold u; lra]. }
  destruct (dadd_ok p q Hp Hq) as [H E]; [apply bpow_big; lra|]. split; [exact H|]. rewrite E.
  pose proof (rnd_plus_err p q Hp Hq) as E4.
  assert (u * Rabs (dval p + dval q) <= u * (M + u * M + 2 * eta0)) as E5 by (apply Rmult_le_compat_l; lra).
  replace (rnd (dval p + dval q) - (P + Q)) with ((rnd (dval p + dval q) - (dval p + dval q)) + ((dval p + dval q) - (P + Q))) by ring.
  eapply Rle_trans; [apply Rabs_triang|]. unfold eps.
  assert (u * (2 * eta0) <= eta0) by (unfold u; lra).
  replace (u * (M + u * M + 2 * eta0)) with (u * M + u * u * M + u * (2 * eta0)) in E5 by ring. lra.
Qed.
Lemma dot_near a b c d M : is_number a -> is_number b -> is_number c -> is_number d ->
  Rabs (dval a * dval c) + Rabs (dval b * dval d) <= M -> M <= bpow radix2 1022 ->
  near (eps * M + 3 * eta0) (nadd dbl (nmul dbl a c) (nmul dbl b d)) (dval a * dval c + dval b * dval d) /\
  near (eps * M + 3 * eta0) (nsub dbl (nmul dbl a c) (nmul dbl b d)) (dval a * dval c - dval b * dval d).
Proof.
  intros Ha Hb Hc Hd HM LM. pose proof top_1022 as [T1 T2].
  pose proof (Rabs_pos (dval a * dval c)) as P1. pose proof (Rabs_pos (dval b * dval d)) as P2.
  destruct (mul_near a c Ha Hc) as [N1 E1]; [lra|]. destruct (mul_near b d Hb Hd) as [N2 E2]; [lra|]. split.
  - now apply sum_near.
  - rewrite sub_add. destruct (dopp_ok _ N2) as [N3 V3]. unfold Rminus at 1. apply sum_near; try assumption.
    + now rewrite Rabs_Ropp. + rewrite V3, Rabs_Ropp. replace (- dval (nmul dbl b d) - - (dval b * dval d)) with (- (dval (nmul dbl b d) - dval b * dval d)) by ring.
      now rewrite Rabs_Ropp.
Qed.

(** ** Quotients *)
Lemma quot_near x n X M N : near (eps * M + 3 * eta0) x X -> near (eps * N + 3 * eta0) n N -> Rabs X <= M ->
  bpow radix2 (-960) <= N -> M / N <= bpow radix2 1021 ->
  near (6 * u * (M / N) + 4 * (eta0 / N) + eta0) (SFdiv dprec demax x n) (X / N).
Proof.
  intros [Hx Ex] [Hn En] HX LN LQ. pose proof eta0_pos as He. pose proof eta0_1 as He1. pose proof top_1022 as [T1 T2]. pose proof u_pos as Hu.
  assert (bpow radix2 1022 = 2 * bpow radix2 1021) as T3 by exact (bpow_plus radix2 1 1021).
  assert (0 < N) as PN. { eapply Rlt_le_trans; [|exact LN]. apply bpow_gt_0. }
  assert (0 <= M) as PM by (pose proof (Rabs_pos X); lra).
  assert (3 * eta0 <= u * u * N) as EN.
  { assert (eta0 <= bpow radix2 (-108) * N) as B.
    { unfold eta0. change (-1075)%Z with (-115 + -960)%Z. rewrite bpow_plus. apply Rmult_le_compat; try apply bpow_ge_0; [apply bpow_le; lia|exact LN]. }
    replace (bpow radix2 (-108)) with (/ 4 * (u * u)) in B; [nra|]. unfold u.
    change (-108)%Z with (-2 + (-53 + -53))%Z. rewrite !bpow_plus. change (bpow radix2 (-2)) with (/ 4).
    change (bpow radix2 (-53)) with (/ 9007199254740992). reflexivity. }
  set (nv := dval n) in *. set (xv := dval x) in *.
  assert (Rabs (nv - N) <= (2 * u + 2 * (u * u)) * N) as En2 by (unfold eps in En; lra).
  assert (N * (1 - 3 * u) <= nv) as Ln.
  { apply Rabs_le_inv in En2. assert ((2 * u + 2 * (u * u)) * N <= 3 * u * N) by (apply Rmult_le_compat_r; [lra|unfold u; lra]). lra. }
  assert (0 < nv) as Pn by (unfold u in Ln; lra).
  set (q := M / N) in *. set (t := eta0 / N).
  assert (M = q * N) as EM by (unfold q; field; lra). assert (eta0 = t * N) as Et by (unfold t; field; lra).
  assert (0 <= q) as Pq by (apply Rmult_le_pos; [lra|left; now apply Rinv_0_lt_compat]).
  assert (0 <= t) as Pt by (apply Rmult_le_pos; [lra|left; now apply Rinv_0_lt_compat]).
  assert (t <= bpow radix2 1) as Lt.
  { apply Rmult_le_reg_r with N; [exact PN|]. rewrite <- Et. apply Rle_trans with (u * u * N); [lra|]. apply Rmult_le_compat_r; [lra|]. simpl. unfold u. lra. }
  change (bpow radix2 1) with 2 in Lt.
  assert (N / nv <= 1 + 4 * u) as Lr.
  { apply Rmult_le_reg_r with nv; [exact Pn|]. replace (N / nv * nv) with N by (field; lra).
    apply Rle_trans with ((1 + 4 * u) * (N * (1 - 3 * u))); [unfold u; lra|]. apply Rmult_le_compat_l; [unfold u; lra|exact Ln]. }
  assert (0 <= N / nv) as Pr by (apply Rmult_le_pos; [lra|left; now apply Rinv_0_lt_compat]).
  set (K := (4 * u + 3 * (u * u)) * q + 3 * t).
  assert (0 <= K) as PK by (unfold K; apply Rplus_le_le_0_compat; [apply Rmult_le_pos; [unfold u; lra|exact Pq]|lra]).
  assert (Rabs (xv / nv - X / N) <= (1 + 4 * u) * K) as E1.
  { replace (xv / nv - X / N) with (((xv - X) * N - X * (nv - N)) * / (nv * N)) by (field; lra).
    rewrite Rabs_mult, (Rabs_right (/ (nv * N))) by (apply Rle_ge; left; apply Rinv_0_lt_compat; now apply Rmult_lt_0_compat).
    apply Rle_trans with (K * (N * N) * / (nv * N)).
    - apply Rmult_le_compat_r; [left; apply Rinv_0_lt_compat; now apply Rmult_lt_0_compat|].
      eapply Rle_trans; [apply Rabs_triang|]. rewrite Rabs_Ropp, !Rabs_mult, (Rabs_right N) by lra.
      apply Rle_trans with ((eps * M + 3 * eta0) * N + M * ((2 * u + 2 * (u * u)) * N)).
      + apply Rplus_le_compat; [apply Rmult_le_compat_r; [lra|exact Ex]|]. apply Rmult_le_compat; try apply Rabs_pos; assumption.
      + unfold K, eps. rewrite EM, Et. right. ring.
    - replace (K * (N * N) * / (nv * N)) with (N / nv * K) by (field; lra). apply Rmult_le_compat_r; assumption. }
  assert (Rabs (X / N) <= q) as E2.
  { unfold Rdiv, q. rewrite Rabs_mult, (Rabs_right (/ N)) by (apply Rle_ge; left; now apply Rinv_0_lt_compat).
    apply Rmult_le_compat_r; [left; now apply Rinv_0_lt_compat|exact HX]. }
  assert (Rabs (xv / nv) <= q + (1 + 4 * u) * K) as E3.
  { replace (xv / nv) with ((xv / nv - X / N) + X / N) by ring. eapply Rle_trans; [apply Rabs_triang|]. lra. }
  assert ((1 + 4 * u) * K <= / 4 * q + 7) as E4 by (unfold K, u; lra).
  destruct (ddiv_ok x n Hx Hn) as (r & Er & Hr & Vr); [fold nv; lra|fold xv nv; apply bpow_big; lra|].
  assert (SFdiv dprec demax x n = r) as -> by (simpl in Er; congruence). split; [exact Hr|]. rewrite Vr. fold xv nv.
  pose proof (rnd_err (xv / nv) eta0 (Rle_refl _)) as E5.
  replace (rnd (xv / nv) - X / N) with ((rnd (xv / nv) - xv / nv) + (xv / nv - X / N)) by ring. eapply Rle_trans; [apply Rabs_triang|].
  assert (u * Rabs (xv / nv) <= u * (q + (1 + 4 * u) * K)) as E6 by (apply Rmult_le_compat_l; lra).
  unfold K, u in *. lra.
Qed.
Lemma cauchy a b c d : Rabs (a * c) + Rabs (b * d) <= R_sqrt.sqrt (a * a + b * b) * R_sqrt.sqrt (c * c + d * d).
Proof.
  assert (0 <= a * a + b * b) as P1 by nra. assert (0 <= c * c + d * d) as P2 by nra. rewrite <- sqrt_mult by assumption.
  rewrite !Rabs_mult. pose proof (Rabs_pos a). pose proof (Rabs_pos b). pose proof (Rabs_pos c). pose proof (Rabs_pos d).
  assert (forall z, Rabs z * Rabs z = z * z) as Sq by (intros z; unfold Rabs; destruct (Rcase_abs z); ring).
  rewrite <- (sqrt_square (Rabs a * Rabs c + Rabs b * Rabs d)) by (apply Rplus_le_le_0_compat; now apply Rmult_le_pos).
  apply sqrt_le_1; [apply Rle_0_sqr|now apply Rmult_le_pos|]. rewrite <- (Sq a), <- (Sq b), <- (Sq c), <- (Sq d).
  pose proof (Rle_0_sqr (Rabs a * Rabs d - Rabs b * Rabs c)) as Z. unfold Rsqr in Z. nra.
Qed.

(** ** The norm out of range *)
Lemma square_any c : is_number c ->
  (is_number (nmul dbl c c) /\ sign_of (nmul dbl c c) = false /\ dval (nmul dbl c c) = rnd (dval c * dval c) /\ dval c * dval c < bpow radix2 1024) \/
  (nmul dbl c c = S754_infinity false /\ bpow radix2 1023 <= dval c * dval c).
Proof.
  intros Hc. destruct (mul_any c c Hc Hc) as [(L & H & V & S)|(L & E)]; rewrite Bool.xorb_nilpotent in *.
  - left. repeat split; try apply H; try assumption. destruct (Rlt_or_le (dval c * dval c) (bpow radix2 1024)) as [?|B]; [assumption|].
    exfalso. apply big_up in B. apply Rabs_lt_inv in L. unfold big in *. lra.
  - right. split; [exact E|]. destruct (Rlt_or_le (dval c * dval c) (bpow radix2 1023)) as [B|?]; [|assumption].
    exfalso. pose proof (bpow_big (dval c * dval c)) as B2. rewrite Rabs_right in B2 by nra. specialize (B2 B). lra.
Qed.
Definition dnorm c d : spec_float := nadd dbl (nmul dbl c c) (nmul dbl d d).
Lemma norm_over c d : is_number c -> is_number d -> bpow radix2 1025 <= dval c * dval c + dval d * dval d -> dnorm c d = S754_infinity false.
Proof.
  intros Hc Hd L. assert (bpow radix2 1025 = 2 * bpow radix2 1024) as T by exact (bpow_plus radix2 1 1024). unfold dnorm.
  destruct (square_any c Hc) as [(N1 & S1 & V1 & L1)|(E1 & _)], (square_any d Hd) as [(N2 & S2 & V2 & L2)|(E2 & _)]; [lra|..].
  - rewrite E2. destruct N1 as [_ N1]. destruct (nmul dbl c c) as [[]|[]| |[] ? ?]; try now elim N1; reflexivity.
  - rewrite E1. destruct N2 as [_ N2]. destruct (nmul dbl d d) as [[]|[]| |[] ? ?]; try now elim N2; reflexivity.
  - now rewrite E1, E2.
Qed.
Lemma square_tiny c : is_number c -> dval c * dval c <= bpow radix2 (-1076) -> nmul dbl c c = S754_zero false.
Proof.
  intros Hc L. assert (bpow radix2 (-1074) = 4 * bpow radix2 (-1076)) as T1 by exact (bpow_plus radix2 2 (-1076)).
  assert (eta0 = 2 * bpow radix2 (-1076)) as T2 by exact (bpow_plus radix2 1 (-1076)). pose proof (bpow_gt_0 radix2 (-1076)) as P.
  assert (bpow radix2 (-1076) < bpow radix2 1023) as T3 by (apply bpow_lt; lia).
  destruct (square_any c Hc) as [(N & S & V & _)|(_ & B)]; [|lra].
  pose proof (rnd_err (dval c * dval c) eta0 (Rle_refl _)) as E. rewrite (Rabs_right (dval c * dval c)) in E by apply Rle_ge, Rle_0_sqr. rewrite <- V in E. apply Rabs_le_inv in E.
  assert (u * (dval c * dval c) <= / 2 * bpow radix2 (-1076)) as B by (apply Rmult_le_compat; [left; apply u_pos|apply Rle_0_sqr|unfold u; lra|exact L]).
  assert (~ 0 < dval (nmul dbl c c)) as Z. { intros Z. apply positive_min in Z; [|exact N]. lra. }
  destruct (nmul dbl c c) as [s|s| |s m e]; try (now destruct N as [_ []]); simpl in S; subst s; [reflexivity|].
  elim Z. unfold dval. apply Rmult_lt_0_compat; [apply IZR_lt; lia|apply powerRZ_lt; lra].
Qed.
Lemma norm_under c d : is_number c -> is_number d -> dval c * dval c + dval d * dval d <= bpow radix2 (-1076) -> dnorm c d = S754_zero false.
Proof. intros Hc Hd L. unfold dnorm. pose proof (Rle_0_sqr (dval c)) as S1. pose proof (Rle_0_sqr (dval d)) as S2. unfold Rsqr in *. rewrite !square_tiny by (assumption || lra). reflexivity. Qed.
Lemma div_inf x : SFdiv dprec demax x (S754_infinity false) = S754_nan \/ exists s, SFdiv dprec demax x (S754_infinity false) = S754_zero s.
Proof. destruct x as [s|s| |s m e]; [right|left|left|right]; try reflexivity; now eexists. Qed.
Lemma div_zero x : SFdiv dprec demax x (S754_zero false) = S754_nan \/ exists s, SFdiv dprec demax x (S754_zero false) = S754_infinity s.
Proof. destruct x as [s|s| |s m e]; [left|right|left|right]; try reflexivity; now eexists. Qed.

(** ** As the properties state it *)
Lemma pz e : powerRZ 2 e = bpow radix2 e.
Proof. now rewrite bpow_powerRZ. Qed.
Lemma p53 : powerRZ 2 (-53) = u.
Proof. now rewrite pz. Qed.
Lemma p106 : powerRZ 2 (-52) + powerRZ 2 (-106) = eps.
Proof.
  rewrite !pz. replace (-106)%Z with (-53 + -53)%Z by reflexivity. rewrite bpow_plus. change (bpow radix2 (-53)) with u.
  change (bpow radix2 (-52)) with (/ 4503599627370496). unfold eps, u. lra.
Qed.
Lemma sum_c x y : is_number x -> is_number y ->
  (is_number (nadd dbl x y) /\ within (powerRZ 2 (-53) * Rabs (dval x + dval y)) (dval (nadd dbl x y)) (dval x + dval y)) \/
  (powerRZ 2 1024 <= (1 + powerRZ 2 (-53)) * Rabs (dval x + dval y) /\
   (0 < dval x + dval y -> nadd dbl x y = S754_infinity false) /\ (dval x + dval y < 0 -> nadd dbl x y = S754_infinity true) /\
   (dval x + dval y = 0 -> nadd dbl x y = S754_nan)).
Proof.
  intros Hx Hy. rewrite p53, pz. pose proof (rnd_plus_err x y Hx Hy) as E. destruct (add_any x y Hx Hy) as [(_ & N & V)|(L & V)].
  - left. split; [exact N|]. unfold within. now rewrite V.
  - right. rewrite V. unfold negative, big in *. pose proof (Rabs_triang_inv (rnd (dval x + dval y)) (dval x + dval y)) as T.
    assert (bpow radix2 1024 <= (1 + u) * Rabs (dval x + dval y)) as B by lra. split; [exact B|]. repeat split; intros Z.
    + now rewrite Rlt_bool_false by lra.
    + now rewrite Rlt_bool_true by lra.
    + exfalso. rewrite Z, Rabs_R0 in B. pose proof (bpow_gt_0 radix2 1024). lra.
Qed.
Definition len (a b : R) : R := R_sqrt.sqrt (a * a + b * b).
Lemma len_swap a b : len a b = len b a.
Proof. unfold len. f_equal. ring. Qed.
Lemma len_sq a b : len a b * len a b = a * a + b * b.
Proof. apply sqrt_sqrt. nra. Qed.
Lemma dot_c a b c d : is_number a -> is_number b -> is_number c -> is_number d ->
  len (dval a) (dval b) * len (dval c) (dval d) <= powerRZ 2 1022 ->
  let e := (powerRZ 2 (-52) + powerRZ 2 (-106)) * (len (dval a) (dval b) * len (dval c) (dval d)) + 3 * powerRZ 2 (-1075) in
  near e (nadd dbl (nmul dbl a c) (nmul dbl b d)) (dval a * dval c + dval b * dval d) /\
  near e (nsub dbl (nmul dbl a c) (nmul dbl b d)) (dval a * dval c - dval b * dval d).
Proof. intros Ha Hb Hc Hd L. rewrite p106, !pz in *. apply dot_near; try assumption. apply cauchy. Qed.
Lemma norm_c c d : is_number c -> is_number d -> dval c * dval c + dval d * dval d <= powerRZ 2 1022 ->
  near ((powerRZ 2 (-52) + powerRZ 2 (-106)) * (dval c * dval c + dval d * dval d) + 3 * powerRZ 2 (-1075)) (dnorm c d) (dval c * dval c + dval d * dval d).
Proof.
  intros Hc Hd L. rewrite p106, !pz in *. apply dot_near; try assumption. rewrite !Rabs_right by nra. apply Rle_refl.
Qed.
Lemma quot_c a b c d : is_number a -> is_number b -> is_number c -> is_number d ->
  let z := len (dval a) (dval b) in let w := len (dval c) (dval d) in
  powerRZ 2 (-480) <= w <= powerRZ 2 511 -> z * w <= powerRZ 2 1022 -> z <= powerRZ 2 1021 * w ->
  let e := 6 * powerRZ 2 (-53) * (z / w) + 4 * (powerRZ 2 (-1075) / (w * w)) + powerRZ 2 (-1075) in
  near e (SFdiv dprec demax (nadd dbl (nmul dbl a c) (nmul dbl b d)) (dnorm c d)) ((dval a * dval c + dval b * dval d) / (w * w)) /\
  near e (SFdiv dprec demax (nsub dbl (nmul dbl a c) (nmul dbl b d)) (dnorm c d)) ((dval a * dval c - dval b * dval d) / (w * w)).
Proof.
  intros Ha Hb Hc Hd z w [L1 L2] L3 L4 e. pose proof (dot_c a b c d Ha Hb Hc Hd L3) as [E1 E2].
  pose proof (pz (-480)) as P1. pose proof (pz 511) as P2. pose proof (bpow_gt_0 radix2 (-480)) as P3.
  assert (bpow radix2 (-480) * bpow radix2 (-480) = bpow radix2 (-960)) as Q1 by (rewrite <- bpow_plus; f_equal; lia).
  assert (bpow radix2 511 * bpow radix2 511 = bpow radix2 1022) as Q2 by (rewrite <- bpow_plus; f_equal; lia).
  rewrite P1 in L1. rewrite P2 in L2.
  assert (bpow radix2 (-960) <= w * w) as N1 by (rewrite <- Q1; apply Rmult_le_compat; lra).
  assert (w * w <= powerRZ 2 1022) as N2 by (rewrite pz, <- Q2; apply Rmult_le_compat; lra).
  assert (w * w = dval c * dval c + dval d * dval d) as N3 by apply len_sq.
  assert (near (eps * (w * w) + 3 * eta0) (dnorm c d) (w * w)) as E3.
  { rewrite N3 in *. pose proof (norm_c c d Hc Hd N2) as E3. now rewrite p106, pz in E3. }
  rewrite p106, pz in E1, E2.
  assert (z / w = z * w / (w * w)) as N4 by (field; lra).
  assert (z * w / (w * w) <= bpow radix2 1021) as N5.
  { rewrite <- N4. rewrite pz in L4. apply Rmult_le_reg_r with w; [lra|]. replace (z / w * w) with z by (field; lra). exact L4. }
  pose proof (cauchy (dval a) (dval b) (dval c) (dval d)) as CS. fold (len (dval a) (dval b)) in CS. fold (len (dval c) (dval d)) in CS. fold z w in CS.
  unfold e. rewrite p53, pz, N4. split.
  - apply quot_near; try assumption. eapply Rle_trans; [apply Rabs_triang|exact CS].
  - apply quot_near; try assumption. unfold Rminus. eapply Rle_trans; [apply Rabs_triang|]. now rewrite Rabs_Ropp.
Qed.
Lemma scal_mul_c x y : is_number x -> is_number y -> Rabs (dval x * dval y) < powerRZ 2 1023 ->
  near (powerRZ 2 (-53) * Rabs (dval x * dval y) + powerRZ 2 (-1075)) (nmul dbl x y) (dval x * dval y).
Proof.
  intros Hx Hy L. rewrite p53, pz. rewrite pz in L. destruct (dmul_ok x y Hx Hy (bpow_big _ L)) as [N V]. split; [exact N|]. rewrite V.
  apply rnd_err. apply Rle_refl.
Qed.
Lemma scal_div_c x y : is_number x -> is_number y -> dval y <> 0 -> Rabs (dval x / dval y) < powerRZ 2 1023 ->
  near (powerRZ 2 (-53) * Rabs (dval x / dval y) + powerRZ 2 (-1075)) (SFdiv dprec demax x y) (dval x / dval y).
Proof.
  intros Hx Hy Z L. rewrite p53, pz. rewrite pz in L. destruct (ddiv_ok x y Hx Hy Z (bpow_big _ L)) as (q & Eq & N & V). injection Eq as ->. split; [exact N|]. rewrite V.
  apply rnd_err. apply Rle_refl.
Qed.
