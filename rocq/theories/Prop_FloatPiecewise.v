(** * C100: piecewise layers in floating point. *)
From Coq Require Import Reals ZArith List Lia Lra.
From Flocq Require Import Core Relative Plus_error Mult_error.
From Verif Require Import Spec Tensor Utils LagrangePolynomial Basis PolynomialLayers Observe FloatUtils FloatLayers SumFacts TensorFacts LagrangeFacts
  LayerFacts SegmentFacts LayerProofs FloatFacts Prop_Layers Prop_Float Prop_FloatLayers.
Import ListNotations.
Local Open Scope R_scope.

Section Format.
Variables emin prec : Z.
Variable k : nat.
Notation K := (Z.of_nat k).
Hypothesis Hk : (K < prec)%Z.
Hypothesis Hemin : (emin <= - prec - K)%Z.
Notation rnd := (nearest emin prec).
Notation fmt := (representable emin prec).
Notation u := (bpow radix2 (- prec)).
Notation N := (2 ^ k)%nat.

Lemma Hprec : (0 < prec)%Z. Proof. lia. Qed.
Local Instance prec_pos' : Prec_gt_0 prec := Hprec.

Lemma N_pos : (1 <= N)%nat.
Proof. pose proof (Nat.pow_nonzero 2 k). lia. Qed.
Lemma N_bpow : INR N = bpow radix2 K.
Proof. clear. rewrite pow_INR. change (INR 2) with 2. induction k as [|j IH]; [reflexivity|]. rewrite Nat2Z.inj_succ, <- Z.add_1_r, bpow_plus. cbn [pow]. rewrite IH. change (bpow radix2 1) with 2. ring. Qed.
Lemma N_Z : Z.of_nat N = (2 ^ K)%Z.
Proof. clear. induction k as [|j IH]; [reflexivity|]. rewrite Nat2Z.inj_succ, Z.pow_succ_r, <- IH by lia. cbn [Nat.pow]. lia. Qed.
Lemma N_prec : (2 ^ K < 2 ^ prec)%Z.
Proof. apply Z.pow_lt_mono_r; lia. Qed.

Lemma fmt_dyadic m e : (Z.abs m <= 2 ^ prec)%Z -> (emin <= e)%Z -> fmt (IZR m * bpow radix2 e).
Proof.
  intros Hm He. destruct (Z.eq_dec (Z.abs m) (2 ^ prec)) as [E|E].
  - assert (P : fmt (bpow radix2 (prec + e))) by (apply generic_format_FLT_bpow; [apply Hprec|]; pose proof Hprec; lia).
    rewrite bpow_plus in P. rewrite <- (IZR_Zpower radix2) in P by (pose proof Hprec; lia). change (Zpower radix2 prec) with (2 ^ prec)%Z in P.
    destruct (Z.abs_eq_or_opp m) as [A|A]; rewrite A in E; [now rewrite E|].
    replace m with (- (2 ^ prec))%Z by lia. rewrite opp_IZR, Ropp_mult_distr_l_reverse. now apply fmt_opp.
  - apply generic_format_FLT. exists (Float radix2 m e); [reflexivity| |exact He]. cbn [Fnum]. change (Z.pow radix2 prec) with (2 ^ prec)%Z. lia.
Qed.

Lemma fmt_up y e : fmt y -> (0 <= e)%Z -> fmt (y * bpow radix2 e).
Proof.
  intros Fy He. apply FLT_format_generic in Fy; [|apply _]. destruct Fy as [[m e0] -> Hm He0]. cbn [Fnum Fexp] in *.
  unfold F2R. cbn [Fnum Fexp]. rewrite Rmult_assoc, <- bpow_plus. apply fmt_dyadic; [|lia]. change (Z.pow radix2 prec) with (2 ^ prec)%Z in Hm. lia.
Qed.

Lemma fmt_Z m : (Z.abs m <= 2 ^ K)%Z -> fmt (IZR m).
Proof. intros H. replace (IZR m) with (IZR m * bpow radix2 0) by (cbn; ring). pose proof N_prec. apply fmt_dyadic; lia. Qed.

(** [2 s / N] and the knots. *)
Lemma frac_eq s : INR s / INR N = IZR (Z.of_nat s) * bpow radix2 (- K).
Proof. rewrite N_bpow, bpow_opp, <- INR_IZR_INZ. reflexivity. Qed.
Lemma fmt_frac s : (s <= N)%nat -> fmt (INR s / INR N).
Proof. intros H. rewrite frac_eq. pose proof N_prec. pose proof N_Z. apply fmt_dyadic; lia. Qed.
Lemma fmt_frac2 s : (s <= N)%nat -> fmt (INR s / INR N * 2).
Proof. intros H. change 2 with (bpow radix2 1). apply fmt_up; [now apply fmt_frac|lia]. Qed.
Lemma knot_eq s : knot N s = IZR (2 * Z.of_nat s - 2 ^ K) * bpow radix2 (- K).
Proof.
  unfold knot. replace (2 * INR s / INR N) with (2 * (INR s / INR N)) by (unfold Rdiv; ring). rewrite frac_eq, minus_IZR, mult_IZR.
  change (2 ^ K)%Z with (Zpower radix2 K). rewrite IZR_Zpower by lia. rewrite bpow_opp. field. apply Rgt_not_eq, bpow_gt_0.
Qed.
Lemma fmt_knot s : (s <= N)%nat -> fmt (knot N s).
Proof. intros H. rewrite knot_eq. pose proof N_prec. pose proof N_Z. apply fmt_dyadic; lia. Qed.

Lemma fl_eta_exact s : (s <= N)%nat -> fl_eta rnd N (Z.of_nat s) = knot N s.
Proof.
  intros H. pose proof N_prec. pose proof N_Z. unfold fl_eta.
  rewrite (rnd_id emin prec (IZR (Z.of_nat s))) by (apply fmt_Z; lia). rewrite (rnd_id emin prec (INR N)) by (rewrite INR_IZR_INZ; apply fmt_Z; lia).
  rewrite <- INR_IZR_INZ. rewrite (rnd_id emin prec (_ / _)) by now apply fmt_frac. rewrite (rnd_id emin prec (_ * 2)) by now apply fmt_frac2.
  replace (INR s / INR N * 2 - 1) with (knot N s) by (unfold knot, Rdiv; ring). apply rnd_id, fmt_knot, H.
Qed.

(** The scaled input compared with [s]. *)
Definition scaled (x : R) : R := rnd (rnd (rnd (x + rnd (1 / 2 * 2)) / rnd 2) * rnd (INR N)).

Lemma scaled_eq x : scaled x = rnd (rnd (rnd (x + 1) / 2) * INR N).
Proof.
  unfold scaled. pose proof N_prec. pose proof N_Z. replace (1 / 2 * 2) with 1 by lra. pose proof Hprec.
  rewrite (rnd_id emin prec 1) by (apply fmt_1; lia). rewrite (rnd_id emin prec (INR N)) by (rewrite INR_IZR_INZ; apply fmt_Z; lia).
  rewrite (rnd_id emin prec 2); auto. change 2 with (bpow radix2 1). apply generic_format_FLT_bpow; [exact Hprec|lia].
Qed.

Lemma scaled_ge x s : (1 <= s <= N)%nat -> (INR s <= scaled x <-> INR s / INR N * 2 <= rnd (x + 1)).
Proof.
  intros [H1 H2]. rewrite scaled_eq. pose proof N_pos as NP. assert (0 < INR N) by (apply lt_0_INR; lia). pose proof Hprec as Hp.
  set (f := rnd (x + 1)). assert (Ff : fmt f) by (apply rnd_fmt; auto). split; intros H'.
  - destruct (Rle_lt_dec (INR s / INR N * 2) f) as [|L]; auto. exfalso.
    assert (G : rnd (f / 2) < INR s / INR N).
    { destruct (Rlt_le_dec f (bpow radix2 (- K))) as [A|A].
      - apply Rle_lt_trans with (bpow radix2 (- K - 1)).
        + rewrite <- (rnd_id emin prec (bpow radix2 (- K - 1))) by (apply generic_format_FLT_bpow; [exact Hprec|lia]). apply rnd_le; auto.
          replace (- K - 1)%Z with (- K + - (1))%Z by lia. rewrite bpow_plus. change (bpow radix2 (- (1))) with (/ 2). lra.
        + rewrite frac_eq. apply Rlt_le_trans with (1 * bpow radix2 (- K)); [rewrite Rmult_1_l; apply bpow_lt; lia|].
          apply Rmult_le_compat_r; [apply bpow_ge_0|]. apply IZR_le. lia.
      - rewrite rnd_id; [lra|]. replace (f / 2) with (f * bpow radix2 (-1)) by (cbn; lra). apply mult_bpow_exact_FLT; [exact Ff|].
        assert (- K < mag radix2 f)%Z; [|lia]. apply mag_gt_bpow. rewrite Rabs_right; auto. pose proof (bpow_gt_0 radix2 (- K)). lra. }
    revert H'. apply Rlt_not_le. rewrite N_bpow. rewrite rnd_id by (apply fmt_up; [apply rnd_fmt; auto|lia]). rewrite <- N_bpow.
    apply (Rmult_lt_compat_r (INR N)) in G; auto. unfold Rdiv in G. rewrite Rmult_assoc, Rinv_l in G by lra. lra.
  - assert (A : INR s / INR N <= rnd (f / 2)). { rewrite <- (rnd_id emin prec (INR s / INR N)) by now apply fmt_frac. apply rnd_le; auto. lra. }
    rewrite <- (rnd_id emin prec (INR s)) by (rewrite INR_IZR_INZ; apply fmt_Z; rewrite <- N_Z; lia). apply rnd_le; auto.
    apply (Rmult_le_compat_r (INR N)) in A; [|lra]. unfold Rdiv in A. rewrite Rmult_assoc, Rinv_l in A by lra. lra.
Qed.

Lemma trunc_ge t (s : Z) : (1 <= s)%Z -> (s <= Ztrunc t)%Z <-> IZR s <= t.
Proof.
  intros Hs. destruct (Rle_lt_dec 0 t) as [P|P].
  - rewrite Ztrunc_floor by auto. split; intros H; [|now apply Zfloor_lub]. apply IZR_le in H. pose proof (Zfloor_lb t). lra.
  - rewrite Ztrunc_ceil by lra. assert (Zceil t <= 0)%Z by (apply Zceil_glb; lra). pose proof (IZR_le _ _ Hs). split; intros; [lia|lra].
Qed.

Lemma segment_ge x s : (1 <= s < N)%nat -> (Z.of_nat s <= fl_segment rnd 2 N x)%Z <-> INR s / INR N * 2 <= rnd (x + 1).
Proof.
  intros H. rewrite <- scaled_ge by lia. rewrite INR_IZR_INZ, <- trunc_ge by lia. unfold fl_segment, clampZ, to_long.
  change (rnd (rnd (rnd (x + rnd (1 / 2 * 2)) / rnd 2) * rnd (INR N))) with (scaled x). lia.
Qed.

Lemma segment_range x : (0 <= fl_segment rnd 2 N x < Z.of_nat N)%Z.
Proof. unfold fl_segment, clampZ. pose proof N_pos. lia. Qed.

(** The computed segment is the segment of [rnd (x + 1) - 1]. *)
Lemma segment_exact x : exists s, fl_segment rnd 2 N x = Z.of_nat s /\ in_segment N s (rnd (x + 1) - 1).
Proof.
  pose proof (segment_range x) as Rg. exists (Z.to_nat (fl_segment rnd 2 N x)). set (s := Z.to_nat _).
  assert (E : fl_segment rnd 2 N x = Z.of_nat s) by (unfold s; lia). split; auto. split; [lia|]. unfold knot. split.
  - destruct (Nat.eq_dec s 0) as [|Ns]; [now left|right]. pose proof (proj1 (segment_ge x s ltac:(lia)) ltac:(lia)). unfold Rdiv in *. lra.
  - destruct (Nat.eq_dec N (S s)) as [|Ns]; [now left|right]. apply Rnot_le_lt. intros L.
    pose proof (proj2 (segment_ge x (S s) ltac:(lia))) as F. enough (Z.of_nat (S s) <= fl_segment rnd 2 N x)%Z by lia. apply F. unfold Rdiv in *. lra.
Qed.

Lemma segment_near x s : fmt x -> -1 <= x <= 1 -> fl_segment rnd 2 N x = Z.of_nat s ->
  (s < N)%nat /\ knot N s - bpow radix2 (1 - prec) <= x <= knot N (S s) /\ (S s = N \/ x < knot N (S s)).
Proof.
  intros Fx Hx E. pose proof Hprec as Hp. pose proof N_pos as NP. destruct (segment_exact x) as (s' & E' & I1 & I2 & I3). rewrite E in E'. apply Nat2Z.inj in E'. subst s'.
  assert (U : bpow radix2 (1 - prec) = 2 * u) by (unfold Zminus; rewrite bpow_plus; reflexivity). rewrite U.
  pose proof (bpow_ge_0 radix2 (- prec)) as U0. pose proof (add_err emin prec Hp x 1 Fx (fmt_1 emin prec Hp ltac:(lia))) as Er.
  rewrite (Rabs_right (x + 1)) in Er by lra. apply Rabs_le_inv in Er.
  assert (u * (x + 1) <= u * 2) by (apply Rmult_le_compat_l; lra).
  assert (Right : S s = N \/ x < knot N (S s)).
  { destruct I3 as [I3|I3]; [left; auto|right]. apply Rnot_le_lt. intros L. revert I3. apply Rle_not_lt.
    assert (INR (S s) / INR N * 2 <= rnd (x + 1)); [|unfold knot, Rdiv in *; lra].
    destruct (Nat.le_gt_cases (S s) N) as [A|A]; [|lia]. rewrite <- (rnd_id emin prec (INR (S s) / INR N * 2)) by now apply fmt_frac2.
    apply rnd_le; auto. unfold knot, Rdiv in *. lra. }
  split; auto. split; auto. split.
  - destruct I2 as [->|I2]; [rewrite knot_0; lra|]. lra.
  - destruct Right as [->|R]; [rewrite knot_S by lia; lra|lra].
Qed.

Lemma local_eq x s : (s < N)%nat ->
  fl_x_local rnd 2 N x (Z.of_nat s) = rnd (2 * rnd (rnd (x - knot N s) * bpow radix2 (K - 1)) - 1).
Proof.
  intros Hs. pose proof Hprec as Hp. unfold fl_x_local. replace (Z.of_nat s + 1)%Z with (Z.of_nat (S s)) by lia. rewrite !fl_eta_exact by lia.
  replace (1 / 2 * 2) with 1 by lra. rewrite (rnd_id emin prec 1) by (apply fmt_1; lia).
  rewrite (rnd_id emin prec 2) by (change 2 with (bpow radix2 1); apply generic_format_FLT_bpow; [exact Hprec|lia]).
  replace (knot N (S s) - knot N s) with (bpow radix2 (1 - K)).
  2:{ unfold knot. rewrite S_INR, N_bpow. unfold Zminus. rewrite bpow_plus, bpow_opp. change (bpow radix2 1) with 2. field. apply Rgt_not_eq, bpow_gt_0. }
  rewrite (rnd_id emin prec (bpow radix2 (1 - K))) by (apply generic_format_FLT_bpow; [exact Hprec|lia]).
  unfold Rdiv. rewrite <- bpow_opp. replace (- (1 - K))%Z with (K - 1)%Z by lia.
  rewrite (rnd_id emin prec (2 * _)); auto. rewrite Rmult_comm. change 2 with (bpow radix2 1). apply fmt_up; [apply rnd_fmt; auto|lia].
Qed.

Lemma local_bounds x s : fmt x -> -1 <= x <= 1 -> fl_segment rnd 2 N x = Z.of_nat s ->
  -1 - bpow radix2 (K + 1 - prec) <= fl_x_local rnd 2 N x (Z.of_nat s) <= 1 /\
  Rabs (fl_x_local rnd 2 N x (Z.of_nat s) - seg_local N s x) <= bpow radix2 (3 - prec).
Proof.
  intros Fx Hx E. pose proof Hprec as Hp. pose proof N_pos as NP. destruct (segment_near x s Fx Hx E) as (Hs & [L1 L2] & _). rewrite local_eq by auto.
  pose proof (bpow_gt_0 radix2 (K - 1)) as PK. pose proof (bpow_gt_0 radix2 (- prec)) as U0. pose proof (bpow_gt_0 radix2 K) as PK'.
  assert (K1 : bpow radix2 K = 2 * bpow radix2 (K - 1)) by (replace K with (1 + (K - 1))%Z at 1 by lia; rewrite bpow_plus; reflexivity).
  assert (Kt : knot N (S s) - knot N s = 2 / bpow radix2 K) by (unfold knot; rewrite S_INR, N_bpow; field; apply Rgt_not_eq, bpow_gt_0).
  assert (F1 : fmt 1) by (apply fmt_1; lia).
  set (a := rnd (x - knot N s)). assert (Fa : fmt a) by (apply rnd_fmt; auto).
  assert (Fk : fmt (knot N s)) by (apply fmt_knot; lia).
  (* upper bounds *)
  assert (A1 : a <= bpow radix2 (1 - K)).
  { rewrite <- (rnd_id emin prec (bpow radix2 (1 - K))) by (apply generic_format_FLT_bpow; [exact Hprec|lia]). apply rnd_le; auto.
    unfold Zminus. rewrite bpow_plus, bpow_opp. change (bpow radix2 1) with 2. unfold Rdiv in Kt. lra. }
  assert (A2 : - bpow radix2 (1 - prec) <= a).
  { rewrite <- (rnd_id emin prec (- bpow radix2 (1 - prec))) by (apply fmt_opp, generic_format_FLT_bpow; [exact Hprec|lia]). apply rnd_le; auto. lra. }
  set (b := rnd (a * bpow radix2 (K - 1))). assert (Fb : fmt b) by (apply rnd_fmt; auto).
  assert (B1 : b <= 1).
  { rewrite <- (rnd_id emin prec 1 F1). apply rnd_le; auto. replace 1 with (bpow radix2 (1 - K) * bpow radix2 (K - 1)) by (rewrite <- bpow_plus; replace (1 - K + (K - 1))%Z with 0%Z by lia; reflexivity).
    apply Rmult_le_compat_r; lra. }
  assert (B2 : - bpow radix2 (K - prec) <= b).
  { rewrite <- (rnd_id emin prec (- bpow radix2 (K - prec))) by (apply fmt_opp, generic_format_FLT_bpow; [exact Hprec|lia]). apply rnd_le; auto.
    replace (K - prec)%Z with (1 - prec + (K - 1))%Z by lia. rewrite bpow_plus. rewrite <- Ropp_mult_distr_l_reverse. apply Rmult_le_compat_r; lra. }
  assert (F2b : fmt (2 * b)) by (rewrite Rmult_comm; change 2 with (bpow radix2 1); apply fmt_up; auto; lia).
  assert (Q : bpow radix2 (K + 1 - prec) = 2 * bpow radix2 (K - prec)) by (replace (K + 1 - prec)%Z with (1 + (K - prec))%Z by lia; rewrite bpow_plus; reflexivity).
  assert (Q1 : bpow radix2 (K - prec) <= / 2) by (change (/ 2) with (bpow radix2 (-1)); apply bpow_le; lia).
  split; [split|].
  - rewrite <- (rnd_id emin prec (-1 - bpow radix2 (K + 1 - prec))); [apply rnd_le; auto; lra|].
    replace (-1 - bpow radix2 (K + 1 - prec)) with (- (IZR (2 ^ (prec - 1 - K) + 1) * bpow radix2 (K + 1 - prec))).
    + apply fmt_opp, fmt_dyadic; [|lia]. assert (2 ^ (prec - 1 - K) <= 2 ^ (prec - 1))%Z by (apply Z.pow_le_mono_r; lia).
      assert (2 ^ prec = 2 * 2 ^ (prec - 1))%Z by (rewrite <- Z.pow_succ_r by lia; f_equal; lia).
      assert (0 < 2 ^ (prec - 1 - K))%Z by (apply Z.pow_pos_nonneg; lia). assert (0 < 2 ^ (prec - 1))%Z by (apply Z.pow_pos_nonneg; lia). lia.
    + rewrite plus_IZR. change (2 ^ (prec - 1 - K))%Z with (Zpower radix2 (prec - 1 - K)). rewrite IZR_Zpower by lia.
      rewrite Rmult_plus_distr_r, <- bpow_plus. replace (prec - 1 - K + (K + 1 - prec))%Z with 0%Z by lia. cbn [bpow]. lra.
  - rewrite <- (rnd_id emin prec 1 F1) at 2. apply rnd_le; auto. lra.
  - (* the error *)
    unfold seg_local. rewrite N_bpow.
    assert (U3 : bpow radix2 (3 - prec) = 8 * u) by (unfold Zminus; rewrite bpow_plus; reflexivity). rewrite U3.
    pose proof (add_err emin prec Hp x (- knot N s) Fx (fmt_opp emin prec _ Fk)) as E1. change (x + - knot N s) with (x - knot N s) in E1. fold a in E1.
    assert (D : Rabs (x - knot N s) * bpow radix2 K <= 2).
    { rewrite <- (Rabs_right (bpow radix2 K)) at 1 by lra. rewrite <- Rabs_mult. 
      assert (2 / bpow radix2 K * bpow radix2 K = 2) by (field; lra).
      assert ((x - knot N s) * bpow radix2 K <= 2 / bpow radix2 K * bpow radix2 K) by (apply Rmult_le_compat_r; lra).
      assert (- bpow radix2 (1 - prec) * bpow radix2 K <= (x - knot N s) * bpow radix2 K) by (apply Rmult_le_compat_r; lra).
      assert (bpow radix2 (1 - prec) * bpow radix2 K = bpow radix2 (K + 1 - prec)) by (rewrite <- bpow_plus; f_equal; lia).
      apply Rabs_le. lra. }
    assert (E2 : Rabs (a * bpow radix2 K - bpow radix2 K * (x - knot N s)) <= u * 2).
    { replace (a * bpow radix2 K - bpow radix2 K * (x - knot N s)) with ((a - (x - knot N s)) * bpow radix2 K) by ring. rewrite Rabs_mult, (Rabs_right (bpow radix2 K)) by lra.
      apply Rle_trans with (u * Rabs (x - knot N s) * bpow radix2 K); [apply Rmult_le_compat_r; lra|]. rewrite Rmult_assoc. apply Rmult_le_compat_l; lra. }
    assert (E3 : Rabs (2 * b - a * bpow radix2 K) <= u * 2).
    { destruct (Z.eq_dec K 0) as [K0|K0].
      - pose proof (any_err emin prec Hp (a * bpow radix2 (K - 1))) as E3. fold b in E3. set (c := a * bpow radix2 (K - 1)) in *.
        replace (2 * b - a * bpow radix2 K) with (2 * (b - c)) by (unfold c; rewrite K1; ring). rewrite Rabs_mult, (Rabs_right 2) by lra.
        destruct (Rlt_le_dec (Rabs a) (bpow radix2 (emin + prec))) as [Sm|Sm].
        + assert (Rabs c <= bpow radix2 (emin + prec - 1)).
          { unfold c. rewrite Rabs_mult, (Rabs_right (bpow _ _)) by lra. rewrite K0. change (0 - 1)%Z with (-1)%Z. unfold Zminus. rewrite bpow_plus. change (- (1))%Z with (-1)%Z. apply Rmult_le_compat_r; [apply bpow_ge_0|lra]. }
          assert (u * Rabs c <= u * bpow radix2 (emin + prec - 1)) by (apply Rmult_le_compat_l; lra). rewrite <- bpow_plus in *.
          replace (- prec + (emin + prec - 1))%Z with (emin - 1)%Z in * by lia.
          assert (bpow radix2 (emin - 1) <= bpow radix2 (- prec - 1)) by (apply bpow_le; lia).
          assert (bpow radix2 (- prec - 1) = u * / 2) by (unfold Zminus; rewrite bpow_plus; reflexivity). lra.
        + unfold b. rewrite rnd_id; [unfold c; rewrite Rminus_eq_0, Rabs_R0; lra|]. unfold c. apply mult_bpow_exact_FLT; [exact Fa|].
          assert (emin + prec < mag radix2 a)%Z; [|lia]. now apply mag_gt_bpow.
      - unfold b. rewrite rnd_id by (apply fmt_up; auto; lia). replace (2 * (a * bpow radix2 (K - 1)) - a * bpow radix2 K) with 0 by (rewrite K1; ring). rewrite Rabs_R0. lra. }
    pose proof (add_err emin prec Hp (2 * b) (- (1)) F2b (fmt_opp emin prec _ F1)) as E4. change (2 * b + - (1)) with (2 * b - 1) in E4.
    assert (Rabs (2 * b - 1) <= 2) by (apply Rabs_le; lra). assert (u * Rabs (2 * b - 1) <= u * 2) by (apply Rmult_le_compat_l; lra).
    replace (rnd (2 * b - 1) - (bpow radix2 K * (x - knot N s) - 1)) with ((rnd (2 * b - 1) - (2 * b - 1)) + (2 * b - a * bpow radix2 K) + (a * bpow radix2 K - bpow radix2 K * (x - knot N s))) by ring.
    eapply Rle_trans; [apply Rabs_triang|]. pose proof (Rabs_triang (rnd (2 * b - 1) - (2 * b - 1)) (2 * b - a * bpow radix2 K)). lra.
Qed.

(** At a knot. *)
Lemma knot_segment s : (s <= N)%nat -> fl_segment rnd 2 N (knot N s) = Z.of_nat (Nat.min s (N - 1)).
Proof.
  intros Hs. pose proof N_pos as NP. pose proof Hprec. destruct (segment_exact (knot N s)) as (s' & E & I1 & I2 & I3). rewrite E. f_equal.
  assert (Ek : rnd (knot N s + 1) = INR s / INR N * 2).
  { replace (knot N s + 1) with (INR s / INR N * 2) by (unfold knot, Rdiv; ring). now apply rnd_id, fmt_frac2. }
  rewrite Ek in *. replace (INR s / INR N * 2 - 1) with (knot N s) in * by (unfold knot, Rdiv; ring).
  assert (M : forall i j, knot N i <= knot N j -> (i <= j)%nat).
  { intros i j L. destruct (Nat.le_gt_cases i j) as [|G]; auto. pose proof (knot_lt N j i NP G). lra. }
  assert (M' : forall i j, knot N i < knot N j -> (i < j)%nat).
  { intros i j L. destruct (Nat.le_gt_cases j i) as [G|]; auto. pose proof (knot_le N j i NP G). lra. }
  destruct I2 as [->|I2]; [|apply M in I2]; destruct I3 as [I3|I3]; try apply M' in I3; lia.
Qed.

Lemma knot_local s : (s < N)%nat -> fl_x_local rnd 2 N (knot N s) (Z.of_nat s) = -1.
Proof.
  intros Hs. pose proof Hprec. rewrite local_eq by auto. rewrite Rminus_eq_0, rnd_0, Rmult_0_l, rnd_0. rewrite Rmult_0_r. replace (0 - 1) with (- (1)) by ring.
  rewrite rnd_id; [ring|]. apply fmt_opp, fmt_1; lia.
Qed.

Lemma knot_local_last : fl_x_local rnd 2 N 1 (Z.of_nat (N - 1)) = 1.
Proof.
  pose proof Hprec. pose proof N_pos as NP. rewrite local_eq by lia. assert (F1 : fmt 1) by (apply fmt_1; lia).
  replace (1 - knot N (N - 1)) with (bpow radix2 (1 - K)).
  2:{ unfold knot. rewrite minus_INR by auto. unfold Zminus. rewrite bpow_plus, bpow_opp, N_bpow. change (bpow radix2 1) with 2. cbn [INR]. field. apply Rgt_not_eq, bpow_gt_0. }
  rewrite (rnd_id emin prec (bpow _ _)) by (apply generic_format_FLT_bpow; [exact Hprec|lia]). rewrite <- bpow_plus. replace (1 - K + (K - 1))%Z with 0%Z by lia.
  cbn [bpow]. rewrite (rnd_id emin prec 1 F1). replace (2 * 1 - 1) with 1 by ring. now apply rnd_id.
Qed.
End Format.

(** ** C100 *)

(** The computed segment, for [2^k] segments: the segment of the input or, within one rounding of its right end, the next one. *)
Theorem C100_segment : forall emin prec k x, (Z.of_nat k < prec)%Z -> (emin <= - prec - Z.of_nat k)%Z ->
  representable emin prec x -> -1 <= x <= 1 ->
  exists s, fl_segment (nearest emin prec) 2 (2 ^ k) x = Z.of_nat s /\ (s < 2 ^ k)%nat /\
    knot (2 ^ k) s - bpow radix2 (1 - prec) <= x <= knot (2 ^ k) (S s) /\
    forall s', in_segment (2 ^ k) s' x -> s = s' \/ (s = S s' /\ knot (2 ^ k) s - bpow radix2 (1 - prec) <= x < knot (2 ^ k) s).
Proof.
  intros emin prec k x Hk He Fx Hx. destruct (segment_exact emin prec k Hk He x) as (s & E & _). exists s. split; auto.
  destruct (segment_near emin prec k Hk He x s Fx Hx E) as (Hs & [L1 L2] & L3). do 2 (split; auto). intros s' (I1 & I2 & I3).
  pose proof (N_pos k) as NP.
  assert (M' : forall i j, knot (2 ^ k) i < knot (2 ^ k) j -> (i < j)%nat).
  { intros i j L. destruct (Nat.le_gt_cases j i) as [G|]; auto. pose proof (knot_le (2 ^ k) j i NP G). lra. }
  assert (A1 : (s' <= s)%nat).
  { destruct I2 as [->|I2]; [lia|]. destruct L3 as [L3|L3]; [lia|]. enough (s' < S s)%nat by lia. apply M'. lra. }
  destruct (Nat.eq_dec s s') as [|Ne]; [now left|right].
  destruct I3 as [I3|I3]; [lia|]. assert (A2 : s = S s').
  { enough (s < S (S s'))%nat by lia. apply M'. assert (knot (2 ^ k) (S (S s')) = knot (2 ^ k) (S s') + 2 * bpow radix2 (- Z.of_nat k)).
    { unfold knot. rewrite (S_INR (S s')), N_bpow, bpow_opp. field. apply Rgt_not_eq, bpow_gt_0. }
    assert (bpow radix2 (1 - prec) <= bpow radix2 (- Z.of_nat k)) by (apply bpow_le; lia). pose proof (bpow_gt_0 radix2 (- Z.of_nat k)). lra. }
  subst s. split; auto.
Qed.
Print Assumptions C100_segment.

(** Every output is, up to the error of C99, the polynomial of the computed segment at a local coordinate that is at most
    [2^(3-prec)] away from the coordinate of the input. *)
Theorem C100_error : forall emin prec k l X x y B, (Z.of_nat k < prec)%Z -> (emin <= - prec - Z.of_nat k)%Z ->
  (1 <= pw_n l)%nat -> pw_segments l = (2 ^ k)%nat -> pw_length l = 2 -> pw_periodicity l = None -> sum_class (pw_cls l) ->
  stored_nodes emin prec (pw_n l) X -> shape x = [B; pw_in l] ->
  (forall b i, (b < B)%nat -> (i < pw_in l)%nat -> representable emin prec (at_ x [b; i]) /\ -1 <= at_ x [b; i] <= 1) ->
  fl_piecewise_forward (nearest emin prec) l X x y ->
  shape y = [B; pw_out l] /\
  forall b, (b < B)%nat -> exists (s : nat -> nat) (L : nat -> R),
    (forall i, (i < pw_in l)%nat -> fl_segment (nearest emin prec) 2 (2 ^ k) (at_ x [b; i]) = Z.of_nat (s i) /\
       -1 - bpow radix2 (Z.of_nat k + 1 - prec) <= L i <= 1 /\ Rabs (L i - seg_local (2 ^ k) (s i) (at_ x [b; i])) <= bpow radix2 (3 - prec)) /\
    forall o, (o < pw_out l)%nat ->
      Rabs (at_ y [b; o] - rsum (pw_in l) (fun i => rsum (pw_n l) (fun j => lagrange_call (pw_n l) X (L i) j * at_ (pw_w l) [o; i; weight_pos (pw_cls l) (pw_n l) (s i) j])))
      <= rsum (pw_in l) (fun i => rsum (pw_n l) (fun j => amplification (pw_n l) X (L i) j * Rabs (at_ (pw_w l) [o; i; weight_pos (pw_cls l) (pw_n l) (s i) j])))
           * growth emin prec (4 * pw_n l + pw_in l * pw_n l)
         + INR (pw_in l * pw_n l) * (bpow radix2 (emin - 1) * (1 + bpow radix2 (- prec)) ^ (pw_in l * pw_n l)).
Proof.
  intros emin prec k l X x y B Hk He Hn HS HL HP Hc [FX DX] Hx Fx (B' & Hx' & Hy & F). rewrite Hx in Hx'. injection Hx' as <-. split; auto.
  intros b Hb. rewrite HS, HL, HP in F. cbn [fl_apply_periodicity] in F.
  set (s := fun i => Z.to_nat (fl_segment (nearest emin prec) 2 (2 ^ k) (at_ x [b; i]))).
  set (L := fun i => fl_x_local (nearest emin prec) 2 (2 ^ k) (at_ x [b; i]) (fl_segment (nearest emin prec) 2 (2 ^ k) (at_ x [b; i]))).
  assert (Es : forall i, fl_segment (nearest emin prec) 2 (2 ^ k) (at_ x [b; i]) = Z.of_nat (s i)).
  { intros i. unfold s. pose proof (segment_range emin prec k (at_ x [b; i])). lia. }
  exists s, L. split.
  - intros i Hi. split; auto. destruct (Fx b i Hb Hi) as [Fi Ri]. unfold L. rewrite Es. apply (local_bounds emin prec k Hk He); auto.
  - intros o Ho. apply interpolate_error; try lia; auto.
    + intros i Hi. unfold L, fl_x_local. apply rnd_fmt. lia.
    + specialize (F b o Hb Ho). cbv zeta in F. destruct F as (bs & F1 & F2). exists bs. split; [exact F1|].
      erewrite flat_map_ext; [exact F2|]. intros i. apply map_ext. intros j. cbv beta. do 2 f_equal. unfold weight_pos, pw_stride. fold (s i).
      destruct (pw_cls l); cbn [is_continuous_class]; reflexivity.
Qed.
Print Assumptions C100_error.

(** At the knots a layer with one input returns the stored weight, without error. *)
Theorem C100_knots_exact : forall emin prec k l X x y B, (Z.of_nat k < prec)%Z -> (emin <= - prec - Z.of_nat k)%Z ->
  (2 <= pw_n l)%nat -> pw_segments l = (2 ^ k)%nat -> pw_length l = 2 -> pw_periodicity l = None -> sum_class (pw_cls l) ->
  pw_in l = 1%nat -> stored_nodes emin prec (pw_n l) X -> at_ X [0%nat] = -1 -> at_ X [(pw_n l - 1)%nat] = 1 ->
  shape x = [B; 1%nat] -> (forall o j, (o < pw_out l)%nat -> (j < pw_num_weights (pw_cls l) (pw_n l) (2 ^ k))%nat -> representable emin prec (at_ (pw_w l) [o; 0%nat; j])) ->
  fl_piecewise_forward (nearest emin prec) l X x y ->
  forall b o s, (b < B)%nat -> (o < pw_out l)%nat -> (s <= 2 ^ k)%nat -> at_ x [b; 0%nat] = knot (2 ^ k) s ->
    at_ y [b; o] = at_ (pw_w l) [o; 0%nat; if Nat.eqb s (2 ^ k) then weight_pos (pw_cls l) (pw_n l) (2 ^ k - 1) (pw_n l - 1) else weight_pos (pw_cls l) (pw_n l) s 0].
Proof.
  intros emin prec k l X x y B Hk He Hn HS HL HP Hc HI [FX DX] X0 X1 Hx Fw (B' & Hx' & Hy & F) b o s Hb Ho Hs Hxs.
  rewrite Hx, HI in Hx'. injection Hx' as <-. specialize (F b o Hb Ho). rewrite HS, HL, HP, HI in F. cbn [fl_apply_periodicity] in F. cbv zeta in F.
  pose proof (N_pos k) as NP.
  pose proof (knot_segment emin prec k Hk He s Hs) as Es. pose proof (Nat2Z.id (Nat.min s (2 ^ k - 1))) as Ei. rewrite <- Es, <- Hxs in Ei. rewrite <- Hxs in Es.
  assert (W : forall j, (Nat.min s (2 ^ k - 1) * pw_stride (pw_cls l) (pw_n l) + j)%nat = weight_pos (pw_cls l) (pw_n l) (Nat.min s (2 ^ k - 1)) j).
  { intros j. unfold weight_pos, pw_stride. destruct (pw_cls l); cbn [is_continuous_class]; reflexivity. }
  assert (Wlt : forall t j, (t < 2 ^ k)%nat -> (j < pw_n l)%nat -> (t * pw_stride (pw_cls l) (pw_n l) + j < pw_num_weights (pw_cls l) (pw_n l) (2 ^ k))%nat).
  { intros t j Ht Hj. unfold pw_num_weights, pw_stride. set (q := (2 ^ k)%nat) in *. clearbody q. destruct (is_continuous_class (pw_cls l)); nia. }
  destruct (Nat.eqb_spec s (2 ^ k)) as [E|E].
  - assert (M : Nat.min s (2 ^ k - 1) = (2 ^ k - 1)%nat) by lia. rewrite M in *.
    rewrite (interpolate_at_node emin prec ltac:(lia) ltac:(lia) (pw_n l) X _ _ _ (pw_n l - 1) ltac:(lia) ltac:(lia) FX DX) with (3 := F).
    + cbv beta. now rewrite Ei, W.
    + cbv beta. rewrite Ei. apply Fw; auto. apply Wlt; lia.
    + cbv beta. rewrite Es, Hxs, E, knot_S, X1 by auto. apply knot_local_last; auto.
  - assert (M : Nat.min s (2 ^ k - 1) = s) by lia. rewrite M in *.
    rewrite (interpolate_at_node emin prec ltac:(lia) ltac:(lia) (pw_n l) X _ _ _ 0 ltac:(lia) ltac:(lia) FX DX) with (3 := F).
    + cbv beta. now rewrite Ei, W.
    + cbv beta. rewrite Ei. apply Fw; auto. apply Wlt; lia.
    + cbv beta. rewrite Es, Hxs, X0. apply knot_local; auto. lia.
Qed.
Print Assumptions C100_knots_exact.

(** Two nodes at -1 and 1 (piecewise linear, continuous) and weights of size at most [W]: the result is close to that of the
    layer in real arithmetic. *)
Theorem C100_linear : forall emin prec k l X x y B W, (Z.of_nat k < prec)%Z -> (emin <= - prec - Z.of_nat k)%Z -> held l ->
  pw_n l = 2%nat -> pw_segments l = (2 ^ k)%nat -> pw_length l = 2 -> pw_periodicity l = None -> pw_cls l = PiecewisePolynomial ->
  at_ X [0%nat] = -1 -> at_ X [1%nat] = 1 -> shape x = [B; pw_in l] ->
  (forall b i, (b < B)%nat -> (i < pw_in l)%nat -> representable emin prec (at_ x [b; i]) /\ -1 <= at_ x [b; i] <= 1) ->
  (forall o i j, (o < pw_out l)%nat -> (i < pw_in l)%nat -> (j <= 2 ^ k)%nat -> Rabs (at_ (pw_w l) [o; i; j]) <= W) ->
  fl_piecewise_forward (nearest emin prec) l X x y ->
  exists z, Piecewise_forward l x = Ok z /\ shape z = [B; pw_out l] /\ shape y = [B; pw_out l] /\
    forall b o, (b < B)%nat -> (o < pw_out l)%nat ->
      Rabs (at_ y [b; o] - at_ z [b; o])
      <= INR (pw_in l) * W * (bpow radix2 (3 - prec) + bpow radix2 (Z.of_nat k + 2 - prec) + 3 * growth emin prec (8 + pw_in l * 2))
         + INR (pw_in l * 2) * (bpow radix2 (emin - 1) * (1 + bpow radix2 (- prec)) ^ (pw_in l * 2)).
Proof.
  intros emin prec k l X x y B W Hk He Hh Hn HS HL HP Hc X0 X1 Hx Fx FW F. pose proof (N_pos k) as NP.
  assert (St : stored_nodes emin prec (pw_n l) X).
  { rewrite Hn. split; [intros [|[|j]] Hj|intros [|[|j]] [|[|j']] Hj Hj' N]; try lia; rewrite ?X0, ?X1; try lra; try (apply fmt_1; lia).
    replace (-1) with (- (1)) by ring. apply fmt_opp, fmt_1; lia. }
  assert (Hc' : sum_class (pw_cls l)) by (left; auto).
  destruct (C100_error emin prec k l X x y B Hk He ltac:(lia) HS HL HP Hc' St Hx Fx F) as (Sy & E). rewrite Hn in E.
  set (w := fun o i j => at_ (pw_w l) [o; i; j]).
  set (g := fun o i s t => w o i s * ((1 - t) / 2) + w o i (S s) * ((1 + t) / 2)).
  destruct (C06_piecewise_layer_function l x B g Hh HL HP Hc' Hx) as (z & Ez & Sz & V).
  { intros o i s. rewrite Hn, Hc. unfold weight_pos, g, w. cbn [Nat.sub]. rewrite Nat.mul_1_r. split.
    - exists (fun m => match m with 0%nat => (at_ (pw_w l) [o; i; s] + at_ (pw_w l) [o; i; S s]) / 2 | _ => (at_ (pw_w l) [o; i; S s] - at_ (pw_w l) [o; i; s]) / 2 end).
      intros t. cbn. field.
    - intros [|[|m]] Hm; try lia; unfold lobatto; cbn [Nat.eqb Nat.sub INR]; rewrite ?Nat.add_0_r, ?Nat.add_1_r.
      + replace (0 * PI / 1) with 0 by field. rewrite cos_0. replace (- (1)) with (-1) by ring. field.
      + replace (1 * PI / 1) with PI by field. rewrite cos_PI. replace (- (-1)) with 1 by ring. field. }
  exists z. do 3 (split; auto). intros b o Hb Ho.
  destruct (E b Hb) as (s & L & A & Eo). specialize (Eo o Ho).
  set (sel := fun i => seg l (at_ x [b; i])).
  assert (Sel : forall i, in_segment (2 ^ k) (sel i) (at_ x [b; i])). { intros i. rewrite <- HS. apply seg_spec; auto; try lia. apply seg_lt. lia. }
  rewrite (V b o sel Hb Ho) by (intros; rewrite HS; apply Sel).
  pose proof (bpow_gt_0 radix2 (3 - prec)) as P3. pose proof (bpow_gt_0 radix2 (Z.of_nat k + 1 - prec)) as Pk.
  assert (Q2 : bpow radix2 (Z.of_nat k + 2 - prec) = 2 * bpow radix2 (Z.of_nat k + 1 - prec)) by (replace (Z.of_nat k + 2 - prec)%Z with (1 + (Z.of_nat k + 1 - prec))%Z by lia; rewrite bpow_plus; reflexivity).
  assert (Q1 : bpow radix2 (Z.of_nat k + 1 - prec) <= 1) by (change 1 with (bpow radix2 0); apply bpow_le; lia).
  assert (G0 : 0 <= growth emin prec (8 + pw_in l * 2)).
  { unfold growth. assert (1 <= (1 + (bpow radix2 (- prec) + bpow radix2 (emin - 1))) ^ (8 + pw_in l * 2)); [|lra]. apply pow_R1_Rle.
    pose proof (bpow_ge_0 radix2 (- prec)); pose proof (bpow_ge_0 radix2 (emin - 1)). lra. }
  assert (Pos : forall i m, weight_pos (pw_cls l) 2 (s i) m = (s i + m)%nat) by (intros; rewrite Hc; unfold weight_pos; lia).
  assert (Sr : forall i, (i < pw_in l)%nat -> (s i < 2 ^ k)%nat).
  { intros i Hi. destruct (A i Hi) as (A1 & _). pose proof (segment_range emin prec k (at_ x [b; i])). lia. }
  (* exact evaluation at the computed coordinates *)
  erewrite rsum_ext with (g := fun i => g o i (s i) (L i)) in Eo.
  2:{ intros i Hi. unfold lagrange_call, denominators, g, w. cbn. rewrite X0, X1, Hc. unfold weight_pos. cbn [Nat.sub]. rewrite Nat.mul_1_r, Nat.add_0_r, Nat.add_1_r. field. }
  assert (E1 : rsum (pw_in l) (fun i => rsum 2 (fun j => amplification 2 X (L i) j * Rabs (at_ (pw_w l) [o; i; weight_pos (pw_cls l) 2 (s i) j]))) <= INR (pw_in l) * W * 3).
  { rewrite Rmult_assoc, <- rsum_const. apply rsum_le. intros i Hi. destruct (A i Hi) as (A1 & A2 & _). specialize (Sr i Hi).
    assert (W0 : forall m, (m <= 1)%nat -> Rabs (at_ (pw_w l) [o; i; weight_pos (pw_cls l) 2 (s i) m]) <= W) by (intros; rewrite Pos; apply FW; auto; lia).
    cbn [rsum]. pose proof (W0 0%nat ltac:(lia)) as W1. pose proof (W0 1%nat ltac:(lia)) as W2.
    pose proof (Rabs_pos (at_ (pw_w l) [o; i; weight_pos (pw_cls l) 2 (s i) 0])). pose proof (Rabs_pos (at_ (pw_w l) [o; i; weight_pos (pw_cls l) 2 (s i) 1])).
    assert (M0 : amplification 2 X (L i) 0 <= 2).
    { unfold amplification. cbn. rewrite X0, X1, !Rmult_1_l. apply Rmax_lub; [lra|]. replace ((L i - 1) / (-1 - 1)) with ((1 - L i) / 2) by lra. apply Rabs_le. lra. }
    assert (M1 : amplification 2 X (L i) 1 <= 1).
    { unfold amplification. cbn. rewrite X0, X1, Rmult_1_r, Rmult_1_l. apply Rmax_lub; [lra|]. replace ((L i - -1) / (1 - -1)) with ((1 + L i) / 2) by lra. apply Rabs_le. lra. }
    set (r0 := Rabs (at_ (pw_w l) [o; i; weight_pos (pw_cls l) 2 (s i) 0])) in *. set (r1 := Rabs (at_ (pw_w l) [o; i; weight_pos (pw_cls l) 2 (s i) 1])) in *.
    assert (amplification 2 X (L i) 0 * r0 <= 2 * r0) by (apply Rmult_le_compat_r; lra). assert (amplification 2 X (L i) 1 * r1 <= 1 * r1) by (apply Rmult_le_compat_r; lra). lra. }
  (* moving the coordinates *)
  assert (E2 : Rabs (rsum (pw_in l) (fun i => g o i (s i) (L i)) - rsum (pw_in l) (fun i => g o i (sel i) (seg_local (pw_segments l) (sel i) (at_ x [b; i]))))
     <= INR (pw_in l) * (W * (bpow radix2 (3 - prec) + bpow radix2 (Z.of_nat k + 2 - prec)))).
  { rewrite <- rsum_minus, <- rsum_const. eapply Rle_trans; [apply rsum_abs|]. apply rsum_le. intros i Hi. destruct (A i Hi) as (A1 & A2 & A3). rewrite HS.
    destruct (Fx b i Hb Hi) as [Fi Ri]. destruct (C100_segment emin prec k (at_ x [b; i]) Hk He Fi Ri) as (s1 & S1 & S2 & S3 & S4).
    rewrite A1 in S1. apply Nat2Z.inj in S1. subst s1. pose proof (Sr i Hi) as Si.
    assert (W0 : forall m, (m <= 2 ^ k)%nat -> Rabs (w o i m) <= W) by (intros; apply FW; auto).
    assert (W00 : 0 <= W) by (specialize (W0 0%nat ltac:(lia)); pose proof (Rabs_pos (w o i 0%nat)); lra).
    assert (Dg : forall m t t', (S m <= 2 ^ k)%nat -> Rabs (g o i m t - g o i m t') <= W * Rabs (t - t')).
    { intros m t t' Hm. unfold g. replace (w o i m * ((1 - t) / 2) + w o i (S m) * ((1 + t) / 2) - (w o i m * ((1 - t') / 2) + w o i (S m) * ((1 + t') / 2)))
        with ((w o i (S m) - w o i m) / 2 * (t - t')) by field.
      rewrite Rabs_mult. apply Rmult_le_compat_r; [apply Rabs_pos|]. pose proof (Rabs_le_inv _ _ (W0 m ltac:(lia))). pose proof (Rabs_le_inv _ _ (W0 (S m) Hm)). apply Rabs_le. lra. }
    destruct (S4 (sel i) (Sel i)) as [Eq|[Eq R]].
    - rewrite <- Eq. eapply Rle_trans; [apply Dg; lia|]. apply Rmult_le_compat_l; auto. lra.
    - assert (Lk : g o i (sel i) 1 = g o i (s i) (-1)) by (rewrite Eq; unfold g; field).
      replace (g o i (s i) (L i) - g o i (sel i) (seg_local (2 ^ k) (sel i) (at_ x [b; i])))
        with ((g o i (s i) (L i) - g o i (s i) (-1)) + (g o i (sel i) 1 - g o i (sel i) (seg_local (2 ^ k) (sel i) (at_ x [b; i])))) by (rewrite Lk; ring).
      eapply Rle_trans; [apply Rabs_triang|].
      pose proof (Dg (s i) (L i) (-1) ltac:(lia)) as D1. pose proof (Dg (sel i) 1 (seg_local (2 ^ k) (sel i) (at_ x [b; i])) ltac:(lia)) as D2.
      set (h := bpow radix2 (Z.of_nat k + 1 - prec)) in *.
      assert (T0 : seg_local (2 ^ k) (sel i) (at_ x [b; i]) = seg_local (2 ^ k) (s i) (at_ x [b; i]) + 2).
      { rewrite Eq. unfold seg_local, knot. rewrite S_INR. field. apply not_0_INR. lia. }
      assert (T1 : - h <= seg_local (2 ^ k) (s i) (at_ x [b; i]) + 1 <= 0).
      { unfold seg_local. rewrite N_bpow. assert (Hh' : h = bpow radix2 (Z.of_nat k) * bpow radix2 (1 - prec)) by (unfold h; rewrite <- bpow_plus; f_equal; lia).
        pose proof (bpow_gt_0 radix2 (Z.of_nat k)) as Pkk. set (c := bpow radix2 (Z.of_nat k)) in *. set (e := bpow radix2 (1 - prec)) in *.
        assert (c * (- e) <= c * (at_ x [b; i] - knot (2 ^ k) (s i))) by (apply Rmult_le_compat_l; lra).
        assert (c * (at_ x [b; i] - knot (2 ^ k) (s i)) <= c * 0) by (apply Rmult_le_compat_l; lra). lra. }
      assert (T2 : Rabs (L i - -1) <= bpow radix2 (3 - prec) + h) by (apply Rabs_le_inv in A3; apply Rabs_le; lra).
      assert (T3 : Rabs (1 - seg_local (2 ^ k) (sel i) (at_ x [b; i])) <= h) by (apply Rabs_le; lra).
      apply (Rmult_le_compat_l W) in T2, T3; auto. rewrite Q2. lra. }
  set (y0 := at_ y [b; o]) in *. set (c0 := rsum (pw_in l) (fun i => g o i (s i) (L i))) in *. set (z0 := rsum (pw_in l) (fun i => g o i (sel i) _)) in *.
  replace (y0 - z0) with ((y0 - c0) + (c0 - z0)) by ring. eapply Rle_trans; [apply Rabs_triang|].
  apply (Rmult_le_compat_r (growth emin prec (8 + pw_in l * 2))) in E1; auto. change (4 * 2 + pw_in l * 2)%nat with (8 + pw_in l * 2)%nat in Eo. lra.
Qed.
Print Assumptions C100_linear.

(** Non-vacuity: some result exists, whatever the (non-empty) layer. *)
Theorem C100_exists : forall emin prec l X x B, (1 <= pw_n l)%nat -> (1 <= pw_in l)%nat -> shape x = [B; pw_in l] ->
  exists y, fl_piecewise_forward (nearest emin prec) l X x y.
Proof.
  intros emin prec l X x B Hn HI Hx.
  destruct (entries_exist B (pw_out l) (fun b o => fl_interpolate (nearest emin prec) (pw_n l) X (pw_in l)
      (fun i => fl_x_local (nearest emin prec) (pw_length l) (pw_segments l) (fl_apply_periodicity (nearest emin prec) (pw_periodicity l) (at_ x [b; i]))
        (fl_segment (nearest emin prec) (pw_length l) (pw_segments l) (fl_apply_periodicity (nearest emin prec) (pw_periodicity l) (at_ x [b; i]))))
      (fun i j => at_ (pw_w l) [o; i; (Z.to_nat (fl_segment (nearest emin prec) (pw_length l) (pw_segments l) (fl_apply_periodicity (nearest emin prec) (pw_periodicity l) (at_ x [b; i]))) *
         pw_stride (pw_cls l) (pw_n l) + j)%nat]))) as (y & Sy & Hy); [intros; now apply interpolate_exists|].
  exists y, B. auto.
Qed.
Print Assumptions C100_exists.

(** float32, two segments, weights 0, 1, 0 (a hat): the hypotheses hold; at the middle knot the result is 1 exactly and at 1/4 it
    is within 2^-16 of 3/4. *)
Definition hat : piecewise := with_w (new_piecewise PiecewisePolynomial 2 1 1 2 2 1 None (fun _ _ => 0))
  (mkT [1%nat; 1%nat; 3%nat] (fun ix => match ix with [_; _; 1%nat] => 1 | _ => 0 end)).
Definition ends : tensor R := mkT [2%nat] (fun ix => match ix with [0%nat] => -1 | _ => 1 end).

Example C100_case : held hat /\ stored_nodes (-149) 24 2 ends /\
  (forall x, shape x = [1%nat; 1%nat] -> exists y, fl_piecewise_forward float32 hat ends x y) /\
  (forall y, fl_piecewise_forward float32 hat ends (mkT [1%nat; 1%nat] (fun _ => 0)) y -> at_ y [0%nat; 0%nat] = 1) /\
  (forall y, fl_piecewise_forward float32 hat ends (mkT [1%nat; 1%nat] (fun _ => 1 / 4)) y -> Rabs (at_ y [0%nat; 0%nat] - 3 / 4) <= bpow radix2 (-16)).
Proof.
  assert (Hh : held hat).
  { exists PiecewisePolynomial, 2%nat, 1%nat, 1%nat, 2%nat, 2, 1, (@None R), (fun _ _ => 0). eexists. do 4 (split; [lia|]). split; [|reflexivity]. reflexivity. }
  assert (St : stored_nodes (-149) 24 2 ends).
  { split; [intros [|[|j]] Hj|intros [|[|j]] [|[|j']] Hj Hj' N]; try lia; cbn; try lra; try (apply fmt_1; lia).
    replace (-1) with (- (1)) by ring. apply fmt_opp, fmt_1; lia. }
  do 2 (split; auto). split; [|split].
  - intros x Hx. apply (C100_exists (-149) 24 hat ends x 1); cbn; auto; lia.
  - intros y Hy. rewrite (C100_knots_exact (-149) 24 1 hat ends _ y 1) with (14 := Hy) (s := 1%nat); try reflexivity; try lia; auto.
    + left. reflexivity.
    + intros o j _ Hj. change (at_ (pw_w hat) [o; 0%nat; j]) with (match j with 1%nat => 1 | _ => 0 end).
      destruct j as [|[|j]]; try (apply generic_format_0). apply fmt_1; lia.
    + cbn. lia.
    + unfold knot. cbn. lra.
  - intros y Hy.
    destruct (C100_linear (-149) 24 1 hat ends (mkT [1%nat; 1%nat] (fun _ => 1 / 4)) y 1 1 ltac:(lia) ltac:(lia) Hh eq_refl eq_refl eq_refl eq_refl eq_refl eq_refl eq_refl eq_refl) as (z & Ez & _ & _ & V).
    + intros b i _ _. cbn [at_]. split; [|lra]. replace (1 / 4) with (bpow radix2 (-2)) by (cbn; lra). apply generic_format_FLT_bpow; [reflexivity|lia].
    + intros o i j _ _ _. change (at_ (pw_w hat) [o; i; j]) with (match j with 1%nat => 1 | _ => 0 end). destruct j as [|[|j]]; rewrite ?Rabs_R0, ?Rabs_R1; lra.
    + exact Hy.
    + specialize (V 0%nat 0%nat ltac:(lia) ltac:(cbn; lia)).
      destruct (C06_piecewise_layer_function hat (mkT [1%nat; 1%nat] (fun _ => 1 / 4)) 1 (fun o i s t => at_ (pw_w hat) [o; i; s] * ((1 - t) / 2) + at_ (pw_w hat) [o; i; S s] * ((1 + t) / 2)) Hh eq_refl eq_refl (or_introl eq_refl) eq_refl) as (z' & Ez' & _ & V').
      { intros o i s. change (pw_n hat) with 2%nat. change (pw_cls hat) with PiecewisePolynomial. unfold weight_pos. cbn [Nat.sub]. rewrite Nat.mul_1_r. split.
        - exists (fun m => match m with 0%nat => (at_ (pw_w hat) [o; i; s] + at_ (pw_w hat) [o; i; S s]) / 2 | _ => (at_ (pw_w hat) [o; i; S s] - at_ (pw_w hat) [o; i; s]) / 2 end).
          intros t. cbn [rsum pow]. field.
        - intros [|[|m]] Hm; try lia; unfold lobatto; cbn [Nat.eqb Nat.sub INR]; rewrite ?Nat.add_0_r, ?Nat.add_1_r.
          + replace (0 * PI / 1) with 0 by field. rewrite cos_0. replace (- (1)) with (-1) by ring. field.
          + replace (1 * PI / 1) with PI by field. rewrite cos_PI. replace (- (-1)) with 1 by ring. field. }
      rewrite Ez in Ez'. injection Ez' as <-.
      rewrite (V' 0%nat 0%nat (fun _ => 1%nat) ltac:(lia) ltac:(cbn; lia)) in V.
      2:{ intros i _. cbn [at_]. change (pw_segments hat) with 2%nat. split; [lia|]. split; [right|left; reflexivity]. unfold knot. cbn. lra. }
      change (pw_in hat) with 1%nat in V. change (pw_segments hat) with 2%nat in V. cbn [rsum at_ hat with_w pw_w] in V.
      replace (seg_local 2 1 (1 / 4)) with (- (1 / 2)) in V by (unfold seg_local, knot; cbn; lra).
      change (8 + 1 * 2)%nat with 10%nat in V. change (1 * 2)%nat with 2%nat in V. change (Z.of_nat 1 + 2 - 24)%Z with (-21)%Z in V. change (3 - 24)%Z with (-21)%Z in V.
      assert (T' : bpow radix2 (-149 - 1) <= / 1099511627776) by (change (/ 1099511627776) with (bpow radix2 (-40)); apply bpow_le; lia).
      assert (Q : bpow radix2 (-24) = / 16777216) by reflexivity. assert (Q' : bpow radix2 (-16) = / 65536) by reflexivity. assert (Q'' : bpow radix2 (-21) = / 2097152) by reflexivity.
      pose proof (C99_growth (-149) 24 10) as G. cbn [INR] in *. change (- (24))%Z with (-24)%Z in *. rewrite Q, ?Q'' in *. rewrite Q'.
      pose proof (bpow_ge_0 radix2 (-149 - 1)) as T0. set (t := bpow radix2 (-149 - 1)) in *. clearbody t.
      assert (G' := G ltac:(lra)).
      assert ((1 + / 16777216) ^ 2 <= 2) by (cbn; lra). assert (t * (1 + / 16777216) ^ 2 <= t * 2) by (apply Rmult_le_compat_l; lra).
      replace (0 + (1 * ((1 - - (1 / 2)) / 2) + 0 * ((1 + - (1 / 2)) / 2))) with (3 / 4) in V by lra. lra.
Qed.
