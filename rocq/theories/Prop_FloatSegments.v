(** * C106: piecewise layers in floating point, with any number of segments and nodes. *)
From Coq Require Import Reals ZArith List Lia Lra.
From Flocq Require Import Core Relative Plus_error Mult_error.
From Verif Require Import Spec Tensor Utils LagrangePolynomial Basis PolynomialLayers Observe FloatUtils FloatLayers SumFacts TensorFacts LagrangeFacts
  LayerFacts SegmentFacts LayerProofs LebesgueFacts FloatFacts Prop_Layers Prop_Bounds Prop_Approx Prop_Lipschitz Prop_Float Prop_FloatLayers Prop_FloatPiecewise.
Import ListNotations.
Local Open Scope R_scope.

(** ** Interpolation through other nodes *)
Lemma any_nodes_poly n X j : (j < n)%nat -> poly_lt n (fun x => lagrange_call n X x j).
Proof.
  intros Hj. set (nd := fun k => at_ X [k]).
  apply (poly_lt_ext n (fun x => rprod j (fun m => / (nd j - nd m) * x + - nd m / (nd j - nd m))
     * rprod (n - 1 - j) (fun m => / (nd j - nd (j + 1 + m)%nat) * x + - nd (j + 1 + m)%nat / (nd j - nd (j + 1 + m)%nat)))).
  - intros x. unfold lagrange_call.
    assert (E : forall g, rprod n g = rprod j g * (g j * rprod (n - 1 - j) (fun m => g (j + 1 + m)%nat))).
    { intros g. replace n with (j + (1 + (n - 1 - j)))%nat at 1 by lia.
      rewrite !rprod_add. simpl (rprod 1 _). rewrite Nat.add_0_r, Rmult_1_l. f_equal. f_equal.
      apply rprod_ext. intros m _. f_equal. lia. }
    rewrite E. rewrite Nat.eqb_refl. simpl negb. cbv iota.
    rewrite Rmult_1_l. f_equal; apply rprod_ext; intros m Hm.
    + destruct (Nat.eqb_spec m j); [lia|]. cbn -[Nat.eqb]. destruct (Nat.eqb_spec m j); [lia|]. fold (nd m) (nd j). unfold Rdiv; ring.
    + destruct (Nat.eqb_spec (j + 1 + m) j); [lia|]. cbn -[Nat.eqb Nat.add]. destruct (Nat.eqb_spec (j + 1 + m) j); [lia|]. fold (nd j) (nd (j + 1 + m)%nat). unfold Rdiv; ring.
  - assert (K : forall k (a b : nat -> R) N f, poly_lt N f -> poly_lt (N + k) (fun x => f x * rprod k (fun i => a i * x + b i))).
    { clear. induction k; intros a b N f Hf.
      - rewrite Nat.add_0_r. apply (poly_lt_ext _ f); auto. intros; simpl; ring.
      - rewrite Nat.add_succ_r. simpl.
        apply (poly_lt_ext _ (fun x => (f x * rprod k (fun i => a i * x + b i)) * (a k * x + b k))); [intros; ring|].
        apply poly_lt_mul_affine. now apply IHk. }
    replace n with (S j + (n - 1 - j))%nat at 1 by lia.
    apply K. apply poly_lt_rprod.
Qed.

Lemma any_nodes_delta n X i j : distinct n (fun k => at_ X [k]) -> (i < n)%nat -> (j < n)%nat ->
  lagrange_call n X (at_ X [i]) j = if Nat.eqb i j then 1 else 0.
Proof.
  intros D Hi Hj. unfold lagrange_call. destruct (Nat.eqb_spec i j) as [->|Hij].
  - apply rprod_one. intros m Hm. destruct (Nat.eqb_spec m j) as [->|Hmj]; [reflexivity|].
    cbn -[Nat.eqb]. destruct (Nat.eqb_spec m j); [contradiction|]. unfold Rdiv. apply Rinv_r. apply Rminus_eq_contra, D; auto.
  - apply (rprod_zero n _ i Hi). destruct (Nat.eqb_spec i j); [contradiction|]. cbn -[Nat.eqb].
    unfold Rdiv. rewrite Rminus_diag_eq by reflexivity. ring.
Qed.

Lemma any_nodes_exact n X f t : distinct n (fun k => at_ X [k]) -> poly_lt n f -> rsum n (fun j => lagrange_call n X t j * f (at_ X [j])) = f t.
Proof.
  intros D Hf. revert t. apply (poly_unique n (fun t => rsum n (fun j => lagrange_call n X t j * f (at_ X [j]))) f (fun k => at_ X [k])); auto.
  - apply poly_lt_rsum. intros j Hj. apply (poly_lt_ext n (fun x => f (at_ X [j]) * lagrange_call n X x j)); [intros; ring|]. now apply poly_lt_scal, any_nodes_poly.
  - intros i Hi. rewrite (rsum_single n i); auto.
    + rewrite any_nodes_delta, Nat.eqb_refl by auto. ring.
    + intros j Hj Ne. rewrite any_nodes_delta by auto. destruct (Nat.eqb_spec i j); [congruence|ring].
Qed.

(** ** Slopes slightly outside [[-1,1]] *)
Lemma fin_max n (f : nat -> R) : (1 <= n)%nat -> exists k, (k < n)%nat /\ forall j, (j < n)%nat -> f j <= f k.
Proof.
  induction n as [|n IH]; [lia|]. intros _. destruct (Nat.eq_dec n 0) as [->|N].
  - exists 0%nat. split; [lia|]. intros j Hj. replace j with 0%nat by lia. lra.
  - destruct IH as (k & Hk & M); [lia|]. destruct (Rle_or_lt (f n) (f k)) as [C|C].
    + exists k. split; [lia|]. intros j Hj. destruct (Nat.eq_dec j n) as [->|]; [auto|apply M; lia].
    + exists n. split; [lia|]. intros j Hj. destruct (Nat.eq_dec j n) as [->|]; [lra|]. specialize (M j ltac:(lia)). lra.
Qed.

Lemma outer_lip n f W h y y' : (1 <= n)%nat -> poly_lt n f -> (forall k, (k < n)%nat -> Rabs (f (lobatto n k)) <= W) -> 0 <= h -> steepness n * h <= 1 / 2 ->
  Rabs y <= 1 + h -> Rabs y' <= 1 + h -> Rabs (f y - f y') <= 2 * W * steepness n * Rabs (y - y').
Proof.
  intros Hn Hf HW Hh HK Hy Hy'. pose proof (steepness_pos n) as K0. set (K := steepness n) in *.
  set (g := fun z => f ((1 + h) * z + 0)). assert (Hg : poly_lt n g) by (apply (poly_lt_comp_affine n (1 + h) 0 f Hf)).
  destruct (fin_max n (fun k => Rabs (g (lobatto n k))) Hn) as (k & Hk & M). set (G := Rabs (g (lobatto n k))) in *.
  assert (G0 : 0 <= G) by apply Rabs_pos.
  assert (E : forall z, interp n 2 (fun j => g (lobatto n j)) z = g z) by (apply interpolates_interp; [auto|]; split; auto).
  assert (L : forall z z', -1 <= z <= 1 -> -1 <= z' <= 1 -> Rabs (g z - g z') <= G * K * Rabs (z - z')).
  { intros z z' Hz Hz'. rewrite <- !E. now apply interp_lip. }
  assert (S : forall z, f z = g (z / (1 + h))) by (intros z; unfold g; f_equal; field; lra).
  assert (I1 : 0 < / (1 + h) <= 1). { split; [apply Rinv_0_lt_compat; lra|]. rewrite <- Rinv_1. apply Rinv_le_contravar; lra. }
  assert (In : forall z, Rabs z <= 1 + h -> -1 <= z / (1 + h) <= 1).
  { intros z Hz. apply Rabs_le_inv in Hz. unfold Rdiv. assert ((1 + h) * / (1 + h) = 1) by (field; lra). nra. }
  assert (G2 : G <= 2 * W).
  { set (c := lobatto n k). assert (Rc : -1 <= c <= 1) by (unfold c; rewrite lobatto_cheb by auto; now apply cheb_range).
    assert (A : Rabs (g c - f c) <= G * K * h).
    { rewrite (S c). eapply Rle_trans; [apply L; auto; apply In, Rabs_le; lra|]. apply Rmult_le_compat_l; [now apply Rmult_le_pos|].
      replace (c - c / (1 + h)) with (c * (h * / (1 + h))) by (field; lra). rewrite Rabs_mult, (Rabs_pos_eq (h * _)) by (apply Rmult_le_pos; lra).
      assert (Rabs c <= 1) by (apply Rabs_le; lra). pose proof (Rabs_pos c).
      apply Rle_trans with (1 * (h * 1)); [|lra]. apply Rmult_le_compat; auto; [apply Rmult_le_pos; lra|]. apply Rmult_le_compat_l; lra. }
    pose proof (HW k Hk) as B. fold c in B. assert (C : G <= Rabs (f c) + Rabs (g c - f c)).
    { unfold G. fold c. replace (g c) with (f c + (g c - f c)) at 1 by ring. apply Rabs_triang. }
    assert (G * K * h <= G * (1 / 2)) by (rewrite Rmult_assoc; apply Rmult_le_compat_l; auto). lra. }
  rewrite !S. eapply Rle_trans; [apply L; auto|].
  replace (y / (1 + h) - y' / (1 + h)) with ((y - y') * / (1 + h)) by (unfold Rdiv; ring). rewrite Rabs_mult, (Rabs_pos_eq (/ _)) by lra.
  pose proof (Rabs_pos (y - y')) as D0. apply Rmult_le_compat; [now apply Rmult_le_pos|apply Rmult_le_pos; lra|apply Rmult_le_compat_r; auto|nra].
Qed.

(** ** The chosen segment and the local coordinate *)
Section Format.
Variables emin prec : Z.
Variable N : nat.
Hypothesis Hprec : (0 < prec)%Z.
Hypothesis Hemin : (emin <= - 2 * prec)%Z.
Hypothesis HN : (1 <= N)%nat.
Hypothesis Hsize : 64 * INR N <= bpow radix2 prec.
Local Instance prec_pos_c106 : Prec_gt_0 prec := Hprec.
Notation rnd := (nearest emin prec).
Notation fmt := (representable emin prec).
Notation u := (bpow radix2 (- prec)).
Notation eta := (bpow radix2 (emin - 1)).

Lemma u0 : 0 < u. Proof. apply bpow_gt_0. Qed.
Lemma N1 : 1 <= INR N. Proof. change 1 with (INR 1). now apply le_INR. Qed.
Lemma Nu : INR N * u <= 1 / 64.
Proof.
  pose proof u0. assert (E : bpow radix2 prec * u = 1) by (rewrite <- bpow_plus; replace (prec + - prec)%Z with 0%Z by lia; reflexivity).
  apply (Rmult_le_compat_r u) in Hsize; lra.
Qed.
Lemma eta0 : 0 <= eta <= u / 64 /\ INR N * eta <= u / 64.
Proof.
  pose proof u0. pose proof N1. pose proof Nu. pose proof (bpow_ge_0 radix2 (emin - 1)).
  assert (A : eta <= u * u) by (rewrite <- bpow_plus; apply bpow_le; lia). nra.
Qed.
Lemma fmt_nat m : (m <= N)%nat -> fmt (INR m).
Proof.
  intros Hm. rewrite INR_IZR_INZ. apply generic_format_FLT. exists (Float radix2 (Z.of_nat m) 0); [unfold F2R; cbn; ring| |cbn; lia]. cbn [Fnum].
  apply lt_IZR. rewrite abs_IZR, <- INR_IZR_INZ, Rabs_pos_eq by apply pos_INR. rewrite IZR_Zpower by lia. apply le_INR in Hm. pose proof N1. lra.
Qed.
Lemma fmt_two y : fmt y -> fmt (2 * y).
Proof. intros F. rewrite Rmult_comm. change 2 with (bpow radix2 1). apply mult_bpow_pos_exact_FLT; auto. lia. Qed.
Lemma fmt1 : fmt 1. Proof. apply fmt_1; lia. Qed.
Lemma rnd_near y e : Rabs y <= e -> Rabs (rnd y - y) <= u * e + eta.
Proof. intros H. eapply Rle_trans; [apply any_err; auto|]. pose proof u0. apply Rplus_le_compat_r, Rmult_le_compat_l; lra. Qed.
Lemma rnd_near_sum a b e : fmt a -> fmt b -> Rabs (a + b) <= e -> Rabs (rnd (a + b) - (a + b)) <= u * e.
Proof. intros A B H. eapply Rle_trans; [apply add_err; auto; lia|]. pose proof u0. apply Rmult_le_compat_l; lra. Qed.
Lemma rnd_between a b y : fmt a -> fmt b -> a <= y <= b -> a <= rnd y <= b.
Proof. intros A B H. rewrite <- (rnd_id emin prec a A), <- (rnd_id emin prec b B). split; apply rnd_le; auto; lra. Qed.

Lemma eta_near s : (s <= N)%nat -> fmt (fl_eta rnd N (Z.of_nat s)) /\ Rabs (fl_eta rnd N (Z.of_nat s) - knot N s) <= 4 * u.
Proof.
  intros Hs. split; [apply rnd_fmt; auto|]. pose proof u0. pose proof eta0 as (T & _). pose proof N1.
  unfold fl_eta. rewrite (rnd_id emin prec (IZR _)) by (rewrite <- INR_IZR_INZ; now apply fmt_nat). rewrite (rnd_id emin prec (INR N)) by now apply fmt_nat.
  rewrite <- INR_IZR_INZ. set (r := INR s / INR N).
  assert (R1 : 0 <= r <= 1).
  { unfold r, Rdiv. pose proof (pos_INR s). apply le_INR in Hs. assert (0 < / INR N) by (apply Rinv_0_lt_compat; lra). split; [apply Rmult_le_pos; lra|].
    apply (Rmult_le_reg_r (INR N)); [lra|]. rewrite Rmult_assoc, Rinv_l by lra. lra. }
  assert (F0 : fmt 0) by apply generic_format_0.
  pose proof (rnd_between 0 1 r F0 fmt1 R1) as Q1. pose proof (rnd_near r 1 ltac:(apply Rabs_le; lra)) as Q2. set (q := rnd r) in *.
  assert (Fq : fmt q) by (apply rnd_fmt; auto). rewrite (Rmult_comm q), (rnd_id emin prec (2 * q)) by now apply fmt_two.
  pose proof (rnd_near_sum (2 * q) (- (1)) 1 (fmt_two q Fq) (fmt_opp emin prec _ fmt1) ltac:(apply Rabs_le; lra)) as Q3. change (2 * q + - (1)) with (2 * q - 1) in Q3.
  replace (knot N s) with (-1 + 2 * r) by (unfold knot, r, Rdiv; ring). apply Rabs_le_inv in Q2, Q3. apply Rabs_le. lra.
Qed.

Lemma segment_close x s : fmt x -> -1 <= x <= 1 -> fl_segment rnd 2 N x = Z.of_nat s ->
  (s < N)%nat /\ knot N s - 7 * u <= x <= knot N (S s) + 7 * u.
Proof.
  intros Fx Hx E. pose proof u0. pose proof eta0 as (T & TN). pose proof N1.
  assert (Hs : (s < N)%nat) by (unfold fl_segment, clampZ in E; lia). split; auto.
  unfold fl_segment in E. replace (1 / 2 * 2) with 1 in E by lra. rewrite (rnd_id emin prec 1) in E by apply fmt1.
  rewrite (rnd_id emin prec 2) in E by (replace 2 with (2 * 1) by ring; apply fmt_two, fmt1). rewrite (rnd_id emin prec (INR N)) in E by now apply fmt_nat.
  assert (F0 : fmt 0) by apply generic_format_0. assert (F2 : fmt 2) by (replace 2 with (2 * 1) by ring; apply fmt_two, fmt1).
  pose proof (rnd_between 0 2 (x + 1) F0 F2 ltac:(lra)) as A1. pose proof (rnd_near_sum x 1 2 Fx fmt1 ltac:(apply Rabs_le; lra)) as A2. set (a := rnd (x + 1)) in *.
  pose proof (rnd_between 0 1 (a / 2) F0 fmt1 ltac:(lra)) as B1. pose proof (rnd_near (a / 2) 1 ltac:(apply Rabs_le; lra)) as B2. set (b := rnd (a / 2)) in *.
  assert (BN : 0 <= b * INR N <= INR N) by (split; [apply Rmult_le_pos; lra|]; rewrite <- (Rmult_1_l (INR N)) at 2; apply Rmult_le_compat_r; lra).
  pose proof (rnd_between 0 (INR N) (b * INR N) F0 (fmt_nat N (le_n N)) BN) as C1. pose proof (rnd_near (b * INR N) (INR N) ltac:(apply Rabs_le; lra)) as C2. set (t := rnd (b * INR N)) in *.
  apply Rabs_le_inv in A2, B2, C2.
  assert (Hb : (x + 1) / 2 - 2 * u - eta <= b <= (x + 1) / 2 + 2 * u + eta) by lra.
  assert (Ht : INR N * ((x + 1) / 2 - 3 * u) - u / 32 <= t <= INR N * ((x + 1) / 2 + 3 * u) + u / 32).
  { assert (INR N * ((x + 1) / 2 - 2 * u - eta) <= INR N * b) by (apply Rmult_le_compat_l; lra).
    assert (INR N * b <= INR N * ((x + 1) / 2 + 2 * u + eta)) by (apply Rmult_le_compat_l; lra). lra. }
  unfold to_long in E. rewrite Ztrunc_floor in E by lra.
  assert (Fl : INR s <= t). { destruct (Nat.eq_dec s 0) as [->|Ns]; [cbn; lra|]. rewrite INR_IZR_INZ. apply Rle_trans with (IZR (Zfloor t)); [|apply Zfloor_lb]. apply IZR_le. unfold clampZ in E. lia. }
  assert (Fu : t <= INR (S s)).
  { destruct (Nat.eq_dec (S s) N) as [->|Ns]; [lra|]. rewrite INR_IZR_INZ. left. apply Rlt_le_trans with (IZR (Zfloor t + 1)); [rewrite plus_IZR; apply Zfloor_ub|]. apply IZR_le. unfold clampZ in E. lia. }
  unfold knot. split.
  - assert (INR s <= INR N * ((x + 1) / 2 + (3 + 1 / 32) * u)) by nra.
    assert (INR s / INR N <= (x + 1) / 2 + (3 + 1 / 32) * u) by (apply (Rmult_le_reg_l (INR N)); [lra|]; replace (INR N * (INR s / INR N)) with (INR s) by (field; lra); lra).
    unfold Rdiv in *. lra.
  - assert (INR N * ((x + 1) / 2 - (3 + 1 / 32) * u) <= INR (S s)) by nra.
    assert ((x + 1) / 2 - (3 + 1 / 32) * u <= INR (S s) / INR N) by (apply (Rmult_le_reg_l (INR N)); [lra|]; replace (INR N * (INR (S s) / INR N)) with (INR (S s)) by (field; lra); lra).
    unfold Rdiv in *. lra.
Qed.

Lemma quotient_close c d X D : 0 < D -> u <= D / 128 -> D <= 2 -> Rabs X <= D + 7 * u -> Rabs (c - X) <= 25 / 4 * u -> Rabs (d - D) <= 41 / 4 * u ->
  0 < d /\ Rabs (c / d - X / D) <= 40 * u / (2 * D).
Proof.
  intros HD Hu D2 HX Hc Hd. pose proof u0. apply Rabs_le_inv in HX, Hc, Hd. assert (D0 : 9 / 10 * D <= d) by lra. split; [lra|].
  replace (c / d - X / D) with (((c - X) * D - X * (d - D)) / (d * D)) by (field; lra).
  assert (A : Rabs ((c - X) * D - X * (d - D)) <= 35 / 2 * u * D).
  { assert (Rabs ((c - X) * D) <= 25 / 4 * u * D) by (rewrite Rabs_mult, (Rabs_pos_eq D) by lra; apply Rmult_le_compat_r; [lra|apply Rabs_le; lra]).
    assert (Rabs (X * (d - D)) <= 17 / 16 * D * (41 / 4 * u)) by (rewrite Rabs_mult; apply Rmult_le_compat; try apply Rabs_pos; apply Rabs_le; lra).
    replace ((c - X) * D - X * (d - D)) with ((c - X) * D + - (X * (d - D))) by ring. eapply Rle_trans; [apply Rabs_triang|]. rewrite Rabs_Ropp. assert (0 <= u * D) by (apply Rmult_le_pos; lra). lra. }
  unfold Rdiv at 1. rewrite Rabs_mult, (Rabs_pos_eq (/ (d * D))) by (left; apply Rinv_0_lt_compat; nra).
  apply (Rmult_le_reg_r (d * D)); [nra|]. rewrite Rmult_assoc, Rinv_l by nra. rewrite Rmult_1_r. eapply Rle_trans; [exact A|].
  replace (40 * u / (2 * D) * (d * D)) with (20 * u * d) by (field; lra). nra.
Qed.

Lemma local_close x s : fmt x -> -1 <= x <= 1 -> fl_segment rnd 2 N x = Z.of_nat s ->
  Rabs (fl_x_local rnd 2 N x (Z.of_nat s) - seg_local N s x) <= 29 * u * INR N.
Proof.
  intros Fx Hx E. destruct (segment_close x s Fx Hx E) as (Hs & Hx'). pose proof u0. pose proof eta0 as (T & TN). pose proof N1 as NP. pose proof Nu as NU.
  destruct (eta_near s ltac:(lia)) as (F0 & E0). destruct (eta_near (S s) ltac:(lia)) as (F1 & E1).
  unfold fl_x_local. replace (Z.of_nat s + 1)%Z with (Z.of_nat (S s)) by lia. set (e0 := fl_eta rnd N (Z.of_nat s)) in *. set (e1 := fl_eta rnd N (Z.of_nat (S s))) in *.
  replace (1 / 2 * 2) with 1 by lra. rewrite (rnd_id emin prec 1) by apply fmt1. rewrite (rnd_id emin prec 2) by (replace 2 with (2 * 1) by ring; apply fmt_two, fmt1).
  set (D := 2 / INR N). assert (HD : 0 < D) by (apply Rdiv_lt_0_compat; lra). assert (ND : INR N * D = 2) by (unfold D; field; lra).
  assert (D2 : D <= 2) by nra. assert (Hu : u <= D / 128) by nra.
  rewrite knot_succ in E1, Hx' by auto. fold D in E1, Hx'. apply Rabs_le_inv in E0, E1.
  assert (u <= 1 / 64) by nra. assert (U2 : u * u <= u / 64) by nra. assert (UD : u * D <= 2 * u) by nra.
  set (X := x - knot N s) in *.
  assert (C : Rabs (rnd (x - e0) - X) <= 25 / 4 * u).
  { pose proof (rnd_near_sum x (- e0) (D + 11 * u) Fx (fmt_opp emin prec _ F0) ltac:(apply Rabs_le; unfold X in *; lra)) as Q. change (x + - e0) with (x - e0) in Q. apply Rabs_le_inv in Q. apply Rabs_le. unfold X in *. lra. }
  assert (Dd : Rabs (rnd (e1 - e0) - D) <= 41 / 4 * u).
  { pose proof (rnd_near_sum e1 (- e0) (D + 8 * u) F1 (fmt_opp emin prec _ F0) ltac:(apply Rabs_le; lra)) as Q. change (e1 + - e0) with (e1 - e0) in Q. apply Rabs_le_inv in Q. apply Rabs_le. lra. }
  set (c := rnd (x - e0)) in *. set (d := rnd (e1 - e0)) in *.
  destruct (quotient_close c d X D HD Hu D2 ltac:(apply Rabs_le; unfold X in *; lra) C Dd) as (Pd & Q).
  assert (XD : X / D = INR N * X / 2) by (unfold D; field; lra). rewrite XD in Q.
  assert (QE : 40 * u / (2 * D) = 10 * u * INR N) by (unfold D; field; lra). rewrite QE in Q.
  assert (NX : - (7 * (INR N * u)) <= INR N * X <= 2 + 7 * (INR N * u)).
  { assert (INR N * (- 7 * u) <= INR N * X) by (apply Rmult_le_compat_l; unfold X in *; lra). assert (INR N * X <= INR N * (D + 7 * u)) by (apply Rmult_le_compat_l; unfold X in *; lra). lra. }
  set (q := c / d) in *. apply Rabs_le_inv in Q.
  assert (Rq : Rabs q <= 3 / 2) by (apply Rabs_le; lra).
  pose proof (rnd_near q (3 / 2) Rq) as R1. set (r := rnd q) in *. assert (Fr : fmt r) by (apply rnd_fmt; auto). apply Rabs_le_inv in R1. apply Rabs_le_inv in Rq.
  rewrite (rnd_id emin prec (2 * r)) by now apply fmt_two.
  pose proof (rnd_near_sum (2 * r) (- (1)) 5 (fmt_two r Fr) (fmt_opp emin prec _ fmt1) ltac:(apply Rabs_le; lra)) as R2. change (2 * r + - (1)) with (2 * r - 1) in R2. apply Rabs_le_inv in R2.
  unfold seg_local. fold X. assert (u <= u * INR N) by nra. apply Rabs_le. lra.
Qed.
End Format.

(** ** C106 *)

(** The segment that floating point chooses, and a point [z] of it, near [x], at which its polynomial is (almost) evaluated. *)
Lemma near_point emin prec N x s : (0 < prec)%Z -> (emin <= - 2 * prec)%Z -> (1 <= N)%nat -> 64 * INR N <= bpow radix2 prec ->
  representable emin prec x -> -1 <= x <= 1 -> fl_segment (nearest emin prec) 2 N x = Z.of_nat s ->
  (s < N)%nat /\ exists z, knot N s <= z <= knot N (S s) /\ Rabs (z - x) <= 36 * bpow radix2 (- prec) /\
    Rabs (fl_x_local (nearest emin prec) 2 N x (Z.of_nat s) - seg_local N s z) <= 36 * bpow radix2 (- prec) * INR N.
Proof.
  intros Hp He HN Hz Fx Hx E. destruct (segment_close emin prec N Hp He HN Hz x s Fx Hx E) as (Hs & K). pose proof (local_close emin prec N Hp He HN Hz x s Fx Hx E) as L.
  split; auto. pose proof (u0 prec) as U. pose proof (N1 N HN) as NP. set (u := bpow radix2 (- prec)) in *. set (t := fl_x_local _ _ _ _ _) in *.
  set (x' := x + (t - seg_local N s x) / INR N). assert (T : t = seg_local N s x') by (unfold x', seg_local; field; lra).
  assert (X' : Rabs (x' - x) <= 29 * u).
  { unfold x'. replace (x + (t - seg_local N s x) / INR N - x) with ((t - seg_local N s x) / INR N) by ring. unfold Rdiv. rewrite Rabs_mult, (Rabs_pos_eq (/ _)) by (left; apply Rinv_0_lt_compat; lra).
    apply (Rmult_le_reg_r (INR N)); [lra|]. rewrite Rmult_assoc, Rinv_l by lra. lra. }
  apply Rabs_le_inv in X'. pose proof (knot_le N s (S s) HN ltac:(lia)) as K'.
  assert (Z : exists z, knot N s <= z <= knot N (S s) /\ Rabs (z - x) <= 36 * u /\ Rabs (x' - z) <= 36 * u).
  { destruct (Rle_or_lt x' (knot N s)); [exists (knot N s)|destruct (Rle_or_lt x' (knot N (S s))); [exists x'|exists (knot N (S s))]]; (split; [lra|split; apply Rabs_le; lra]). }
  destruct Z as (z & Z1 & Z2 & Z3). exists z. do 2 (split; auto). rewrite T. replace (seg_local N s x' - seg_local N s z) with (INR N * (x' - z)) by (unfold seg_local; ring).
  rewrite Rabs_mult, (Rabs_pos_eq (INR N)) by lra. rewrite Rmult_comm. apply Rmult_le_compat_r; lra.
Qed.

(** Nodes stored within [eps] of the Chebyshev-Lobatto points. *)
Definition close_nodes (n : nat) (X : tensor R) (eps : R) : Prop :=
  forall k, (k < n)%nat -> -1 <= at_ X [k] <= 1 /\ Rabs (at_ X [k] - lobatto n k) <= eps.
(** [A] bounds the sum of the basis functions' factors around [[-1,1]]. *)
Definition amplified_by (n : nat) (X : tensor R) (A : R) : Prop := forall t, Rabs t <= 2 -> rsum n (amplification n X t) <= A.

Lemma call_le_amplification n X x j : Rabs (lagrange_call n X x j) <= amplification n X x j.
Proof.
  unfold lagrange_call, amplification. induction n as [|n IH]; cbn [rprod]; [rewrite Rabs_R1; lra|]. rewrite Rabs_mult.
  apply Rmult_le_compat; try apply Rabs_pos; auto. cbn -[Nat.eqb]. destruct (Nat.eqb n j); cbn [negb]; [rewrite Rabs_R1; lra|apply Rmax_r].
Qed.
Lemma amplification_ge1 n X x j : 1 <= amplification n X x j.
Proof.
  unfold amplification. induction n as [|n IH]; cbn [rprod]; [lra|]. assert (1 <= (if Nat.eqb n j then 1 else Rmax 1 (Rabs ((x - at_ X [n]) / (at_ X [j] - at_ X [n]))))) by (destruct (Nat.eqb n j); [lra|apply Rmax_l]). nra.
Qed.

(** The interpolant through stored nodes against the polynomial through the Chebyshev-Lobatto points. *)
Lemma nodes_error n X eps A W v P t : (1 <= n)%nat -> distinct n (fun k => at_ X [k]) -> close_nodes n X eps -> amplified_by n X A -> interpolates n v P ->
  (forall k, (k < n)%nat -> Rabs (v k) <= W) -> Rabs t <= 2 -> Rabs (rsum n (fun j => lagrange_call n X t j * v j) - P t) <= W * (steepness n * (eps * A)).
Proof.
  intros Hn HD HX HA [HP HV] HW Ht. rewrite <- (any_nodes_exact n X P t HD HP), <- rsum_minus. pose proof (steepness_pos n) as K0.
  assert (W0 : 0 <= W) by (pose proof (HW 0%nat ltac:(lia)); pose proof (Rabs_pos (v 0%nat)); lra).
  assert (E0 : 0 <= eps) by (destruct (HX 0%nat ltac:(lia)) as (_ & Q); pose proof (Rabs_pos (at_ X [0%nat] - lobatto n 0)); lra).
  eapply Rle_trans; [apply rsum_abs|]. apply Rle_trans with (rsum n (fun j => W * (steepness n * eps) * amplification n X t j)).
  - apply rsum_le. intros j Hj. rewrite <- Rmult_minus_distr_l, Rabs_mult, Rmult_comm. apply Rmult_le_compat; try apply Rabs_pos; [|apply call_le_amplification].
    destruct (HX j Hj) as (R & C). rewrite <- (HV j Hj). rewrite <- !(interpolates_interp n v P Hn (conj HP HV)).
    assert (Rl : -1 <= lobatto n j <= 1) by (rewrite lobatto_cheb by auto; now apply cheb_range).
    eapply Rle_trans; [apply interp_lip; auto|]. rewrite Rmult_assoc. apply Rmult_le_compat_l; auto. apply Rmult_le_compat_l; auto. now rewrite Rabs_minus_sym.
  - rewrite rsum_scal. replace (W * (steepness n * (eps * A))) with (W * (steepness n * eps) * A) by ring. apply Rmult_le_compat_l; [|now apply HA]. apply Rmult_le_pos; auto. now apply Rmult_le_pos.
Qed.

Lemma growth_pos emin prec k : 0 <= growth emin prec k.
Proof. unfold growth. assert (1 <= (1 + (bpow radix2 (- prec) + bpow radix2 (emin - 1))) ^ k); [|lra]. apply pow_R1_Rle. pose proof (bpow_ge_0 radix2 (- prec)); pose proof (bpow_ge_0 radix2 (emin - 1)). lra. Qed.

(** What the numbers below stand for: the tiny term of the reductions' underflow. *)
Definition underflow (emin prec : Z) (k : nat) : R := INR k * (bpow radix2 (emin - 1) * (1 + bpow radix2 (- prec)) ^ k).

(** Floating point evaluates, for every input, the polynomial of one segment at a point of it that is within a few units of the
    last place of the input. *)
Theorem C106_error : forall emin prec l X eps A W x y B P, held l -> pw_length l = 2 -> pw_periodicity l = None -> sum_class (pw_cls l) ->
  (0 < prec)%Z -> (emin <= - 2 * prec)%Z -> 128 * INR (pw_segments l) * (1 + steepness (pw_n l)) <= bpow radix2 prec ->
  stored_nodes emin prec (pw_n l) X -> close_nodes (pw_n l) X eps -> amplified_by (pw_n l) X A ->
  (forall o i p, valid (shape (pw_w l)) [o; i; p] -> Rabs (at_ (pw_w l) [o; i; p]) <= W) ->
  (forall o i s, interpolates (pw_n l) (fun k => at_ (pw_w l) [o; i; weight_pos (pw_cls l) (pw_n l) s k]) (P o i s)) ->
  shape x = [B; pw_in l] -> (forall b i, (b < B)%nat -> (i < pw_in l)%nat -> representable emin prec (at_ x [b; i]) /\ -1 <= at_ x [b; i] <= 1) ->
  fl_piecewise_forward (nearest emin prec) l X x y ->
  shape y = [B; pw_out l] /\
  forall b, (b < B)%nat -> exists (s : nat -> nat) (z : nat -> R),
    (forall i, (i < pw_in l)%nat -> (s i < pw_segments l)%nat /\ knot (pw_segments l) (s i) <= z i <= knot (pw_segments l) (S (s i)) /\ Rabs (z i - at_ x [b; i]) <= 36 * bpow radix2 (- prec)) /\
    forall o, (o < pw_out l)%nat ->
      Rabs (at_ y [b; o] - rsum (pw_in l) (fun i => P o i (s i) (seg_local (pw_segments l) (s i) (z i))))
      <= INR (pw_in l) * W * (steepness (pw_n l) * (INR (pw_segments l) * (72 * bpow radix2 (- prec)) + eps * A) + A * growth emin prec (4 * pw_n l + pw_in l * pw_n l))
         + underflow emin prec (pw_in l * pw_n l).
Proof.
  intros emin prec l X eps A W x y B P H HL Hp Hc Hprec He Hsize [FX DX] HX HA HW HP Hx Fx (B' & Hx' & Hy & F).
  rewrite Hx in Hx'. injection Hx' as <-. split; auto. intros b Hb. pose proof (held_wf l H) as (Hn & HS & _).
  rewrite HL, Hp in F. cbn [fl_apply_periodicity] in F. set (N := pw_segments l) in *. set (n := pw_n l) in *. pose proof (steepness_pos n) as K0. set (K := steepness n) in *.
  pose proof (N1 N HS) as NP. pose proof (u0 prec) as U. set (u := bpow radix2 (- prec)) in *.
  assert (Z64 : 64 * INR N <= bpow radix2 prec) by nra.
  assert (Eu : bpow radix2 prec * u = 1) by (unfold u; rewrite <- bpow_plus; replace (prec + - prec)%Z with 0%Z by lia; reflexivity).
  assert (KN : K * (36 * u * INR N) <= 1 / 2 /\ 36 * u * INR N <= 1 / 2).
  { apply (Rmult_le_compat_r u) in Hsize; [|lra]. rewrite Eu in Hsize. assert (0 <= u * INR N) by nra. assert (0 <= K * (u * INR N)) by nra. lra. }
  set (rnd := nearest emin prec) in *. set (s := fun i => Z.to_nat (fl_segment rnd 2 N (at_ x [b; i]))).
  assert (Es : forall i, fl_segment rnd 2 N (at_ x [b; i]) = Z.of_nat (s i)) by (intros i; unfold s, fl_segment, clampZ; lia).
  set (L := fun i => fl_x_local rnd 2 N (at_ x [b; i]) (Z.of_nat (s i))).
  assert (Z : forall i, exists z, (i < pw_in l)%nat -> (s i < N)%nat /\ knot N (s i) <= z <= knot N (S (s i)) /\ Rabs (z - at_ x [b; i]) <= 36 * u /\ Rabs (L i - seg_local N (s i) z) <= 36 * u * INR N).
  { intros i. destruct (Nat.lt_ge_cases i (pw_in l)) as [Hi|Hi]; [|exists 0; lia]. destruct (Fx b i Hb Hi) as [Fi Ri].
    destruct (near_point emin prec N (at_ x [b; i]) (s i) Hprec He HS Z64 Fi Ri (Es i)) as (Z0 & z & Z1 & Z2 & Z3). exists z. intros _. auto. }
  assert (Zc : exists z : nat -> R, forall i, (i < pw_in l)%nat -> (s i < N)%nat /\ knot N (s i) <= z i <= knot N (S (s i)) /\ Rabs (z i - at_ x [b; i]) <= 36 * u /\ Rabs (L i - seg_local N (s i) (z i)) <= 36 * u * INR N).
  { clear - Z. induction (pw_in l) as [|I IH]; [exists (fun _ => 0); intros; lia|]. destruct IH as (z & Hz).
    { intros i. destruct (Z i) as (zi & Hzi). exists zi. intros Hi. apply Hzi. lia. }
    destruct (Z I) as (zI & HzI). exists (fun i => if Nat.eqb i I then zI else z i). intros i Hi. destruct (Nat.eqb_spec i I) as [->|Ne]; [apply HzI; lia|apply Hz; lia]. }
  destruct Zc as (z & Hz). exists s, z. split; [intros i Hi; destruct (Hz i Hi) as (? & ? & ? & ?); auto|]. intros o Ho.
  specialize (F b o Hb Ho). cbv zeta in F.
  set (w := fun i j => at_ (pw_w l) [o; i; weight_pos (pw_cls l) n (s i) j]).
  assert (Fi : fl_interpolate rnd n X (pw_in l) L w (at_ y [b; o])).
  { destruct F as (bs & F1 & F2). exists bs. split.
    - intros i j Hi Hj. unfold L. rewrite <- Es. exact (F1 i j Hi Hj).
    - erewrite flat_map_ext; [exact F2|]. intros i. apply map_ext. intros j. cbv beta. unfold w. do 2 f_equal. unfold weight_pos, pw_stride. fold (s i).
      destruct (pw_cls l); cbn [is_continuous_class]; reflexivity. }
  pose proof (interpolate_error emin prec Hprec n X (pw_in l) L w (at_ y [b; o]) Hn ltac:(intros; unfold L, fl_x_local; now apply rnd_fmt) FX DX Fi) as E. fold (underflow emin prec (pw_in l * n)) in E.
  pose proof (growth_pos emin prec (4 * n + pw_in l * n)) as G0. set (G := growth emin prec (4 * n + pw_in l * n)) in *.
  assert (Wb : forall i j, (i < pw_in l)%nat -> (j < n)%nat -> Rabs (w i j) <= W). { intros i j Hi Hj. apply HW. apply wf_weight; auto. now apply Hz. }
  assert (RL : forall i, (i < pw_in l)%nat -> Rabs (L i) <= 1 + 36 * u * INR N /\ Rabs (seg_local N (s i) (z i)) <= 1).
  { intros i Hi. destruct (Hz i Hi) as (Z0 & Z1 & _ & Z3). assert (Rabs (seg_local N (s i) (z i)) <= 1).
    { rewrite knot_succ in Z1 by auto. unfold seg_local. assert (INR N * (2 / INR N) = 2) by (field; lra).
      assert (INR N * 0 <= INR N * (z i - knot N (s i))) by (apply Rmult_le_compat_l; lra). assert (INR N * (z i - knot N (s i)) <= INR N * (2 / INR N)) by (apply Rmult_le_compat_l; lra). apply Rabs_le. lra. }
    split; auto. replace (L i) with (seg_local N (s i) (z i) + (L i - seg_local N (s i) (z i))) by ring. eapply Rle_trans; [apply Rabs_triang|]. lra. }
  assert (E1 : rsum (pw_in l) (fun i => rsum n (fun j => amplification n X (L i) j * Rabs (w i j))) <= INR (pw_in l) * (W * A)).
  { rewrite <- rsum_const. apply rsum_le. intros i Hi. destruct (RL i Hi) as (R1 & _).
    assert (W0 : 0 <= W) by (pose proof (Wb i 0%nat Hi ltac:(lia)); pose proof (Rabs_pos (w i 0%nat)); lra).
    apply Rle_trans with (rsum n (fun j => W * amplification n X (L i) j)).
    - apply rsum_le. intros j Hj. rewrite Rmult_comm. apply Rmult_le_compat_r; [pose proof (amplification_ge1 n X (L i) j); lra|auto].
    - rewrite rsum_scal. apply Rmult_le_compat_l; auto. apply HA. lra. }
  assert (E2 : Rabs (rsum (pw_in l) (fun i => rsum n (fun j => lagrange_call n X (L i) j * w i j)) - rsum (pw_in l) (fun i => P o i (s i) (seg_local N (s i) (z i))))
     <= INR (pw_in l) * (W * (K * (INR N * (72 * u) + eps * A)))).
  { rewrite <- rsum_minus, <- rsum_const. eapply Rle_trans; [apply rsum_abs|]. apply rsum_le. intros i Hi. destruct (RL i Hi) as (R1 & R2). destruct (Hz i Hi) as (Z0 & Z1 & _ & Z3).
    assert (W0 : 0 <= W) by (pose proof (Wb i 0%nat Hi ltac:(lia)); pose proof (Rabs_pos (w i 0%nat)); lra).
    pose proof (nodes_error n X eps A W (w i) (P o i (s i)) (L i) Hn DX HX HA (HP o i (s i)) (fun j Hj => Wb i j Hi Hj) ltac:(lra)) as D1. fold K in D1.
    pose proof (outer_lip n (P o i (s i)) W (36 * u * INR N) (L i) (seg_local N (s i) (z i)) Hn (proj1 (HP o i (s i)))) as D2.
    assert (D3 : Rabs (P o i (s i) (L i) - P o i (s i) (seg_local N (s i) (z i))) <= 2 * W * K * (36 * u * INR N)).
    { eapply Rle_trans; [apply D2|apply Rmult_le_compat_l; auto; apply Rmult_le_pos; [apply Rmult_le_pos; lra|exact K0]].
      - intros k Hk. rewrite (proj2 (HP o i (s i)) k Hk). now apply (Wb i k).
      - apply Rmult_le_pos; [|lra]. lra.
      - apply KN.
      - exact R1.
      - assert (0 <= 36 * u * INR N) by (apply Rmult_le_pos; lra). lra. }
    replace (rsum n (fun j => lagrange_call n X (L i) j * w i j) - P o i (s i) (seg_local N (s i) (z i)))
      with ((rsum n (fun j => lagrange_call n X (L i) j * w i j) - P o i (s i) (L i)) + (P o i (s i) (L i) - P o i (s i) (seg_local N (s i) (z i)))) by ring.
    eapply Rle_trans; [apply Rabs_triang|]. lra. }
  apply (Rmult_le_compat_r G) in E1; auto.
  set (y0 := at_ y [b; o]) in *. set (c0 := rsum (pw_in l) (fun i => rsum n (fun j => lagrange_call n X (L i) j * w i j))) in *. set (z0 := rsum (pw_in l) (fun i => P o i (s i) _)) in *.
  replace (y0 - z0) with ((y0 - c0) + (c0 - z0)) by ring. eapply Rle_trans; [apply Rabs_triang|]. lra.
Qed.
Print Assumptions C106_error.

Lemma link0_closed l o i s z : held l -> pw_length l = 2 -> pw_cls l = PiecewisePolynomial -> (s < pw_segments l)%nat ->
  knot (pw_segments l) s <= z <= knot (pw_segments l) (S s) -> link0 l o i z = piece l o i s z.
Proof.
  intros H HL Hc Hs Hz. pose proof (held_wf l H) as (Hn & HS & _). assert (Cc : is_continuous_class (pw_cls l) = true) by (now rewrite Hc).
  destruct (Rlt_or_le z (knot (pw_segments l) (S s))) as [C|C].
  - unfold link0. replace (seg l z) with s; auto. symmetry. apply seg_spec; auto. repeat split; auto; right; lra.
  - replace z with (knot (pw_segments l) (S s)) by lra. destruct (Nat.eq_dec (S s) (pw_segments l)) as [E|E].
    + unfold link0. replace (seg l _) with s; auto. symmetry. apply seg_spec; auto. repeat split; auto; right; lra.
    + rewrite piece_match by auto. unfold link0. replace (seg l _) with (S s); auto. symmetry. apply seg_spec; auto; try lia.
      repeat split; try lia; right; [lra|]. apply knot_lt; auto.
Qed.

(** Continuous layers: the distance from the layer in real arithmetic, at the same inputs. *)
Theorem C106_continuous : forall emin prec l X eps A W x y B, held l -> pw_length l = 2 -> pw_periodicity l = None -> pw_cls l = PiecewisePolynomial ->
  (0 < prec)%Z -> (emin <= - 2 * prec)%Z -> 128 * INR (pw_segments l) * (1 + steepness (pw_n l)) <= bpow radix2 prec ->
  stored_nodes emin prec (pw_n l) X -> close_nodes (pw_n l) X eps -> amplified_by (pw_n l) X A ->
  (forall o i p, valid (shape (pw_w l)) [o; i; p] -> Rabs (at_ (pw_w l) [o; i; p]) <= W) ->
  shape x = [B; pw_in l] -> (forall b i, (b < B)%nat -> (i < pw_in l)%nat -> representable emin prec (at_ x [b; i]) /\ -1 <= at_ x [b; i] <= 1) ->
  fl_piecewise_forward (nearest emin prec) l X x y ->
  exists z, Piecewise_forward l x = Ok z /\ shape z = [B; pw_out l] /\ shape y = [B; pw_out l] /\
    forall b o, (b < B)%nat -> (o < pw_out l)%nat ->
      Rabs (at_ y [b; o] - at_ z [b; o])
      <= INR (pw_in l) * W * (steepness (pw_n l) * (INR (pw_segments l) * (108 * bpow radix2 (- prec)) + eps * A) + A * growth emin prec (4 * pw_n l + pw_in l * pw_n l))
         + underflow emin prec (pw_in l * pw_n l).
Proof.
  intros emin prec l X eps A W x y B H HL Hp Hc Hprec He Hsize HS' HX HA HW Hx Fx F. assert (Hsum : sum_class (pw_cls l)) by (now left).
  pose proof (held_wf l H) as (Hn & HS & HI & _).
  set (P := fun o i s => interp (pw_n l) 2 (fun k => at_ (pw_w l) [o; i; weight_pos (pw_cls l) (pw_n l) s k])).
  assert (HP : forall o i s, interpolates (pw_n l) (fun k => at_ (pw_w l) [o; i; weight_pos (pw_cls l) (pw_n l) s k]) (P o i s)) by (intros; now apply interp_interpolates).
  destruct (C106_error emin prec l X eps A W x y B P H HL Hp Hsum Hprec He Hsize HS' HX HA HW HP Hx Fx F) as (Sy & E).
  destruct (forward_rows l x B H Hx) as (z & Ez & Sz & V). exists z. do 3 (split; auto). intros b o Hb Ho. rewrite V, layer_out_sum by auto.
  destruct (E b Hb) as (s & t & A1 & A2). specialize (A2 o Ho). pose proof (u0 prec) as U. set (u := bpow radix2 (- prec)) in *. pose proof (N1 _ HS) as NP. set (N := pw_segments l) in *. set (K := steepness (pw_n l)) in *.
  assert (D : Rabs (rsum (pw_in l) (fun i => P o i (s i) (seg_local N (s i) (t i))) - rsum (pw_in l) (fun i => link l o i (row x b i))) <= INR (pw_in l) * (W * K * INR N * (36 * u))).
  { rewrite <- rsum_minus, <- rsum_const. eapply Rle_trans; [apply rsum_abs|]. apply rsum_le. intros i Hi. destruct (A1 i Hi) as (S0 & S1 & S2). destruct (Fx b i Hb Hi) as (_ & Rx).
    assert (Q : P o i (s i) (seg_local N (s i) (t i)) = link0 l o i (t i)).
    { rewrite (link0_closed l o i (s i) (t i)) by auto. unfold piece. rewrite x_local_seg by auto. apply interp_ext. intros k Hk. symmetry. apply seg_weight_eq. }
    rewrite Q. unfold link. rewrite Hp. cbn [apply_periodicity]. change (row x b i) with (at_ x [b; i]).
    assert (W0 : 0 <= W). { eapply Rle_trans; [apply Rabs_pos|]. apply (HW o i (weight_pos (pw_cls l) (pw_n l) 0 0)). apply wf_weight; auto. }
    assert (K0 : 0 <= K) by apply steepness_pos.
    eapply Rle_trans; [apply (link0_lip l o i W); auto|].
    - rewrite Hc. now left.
    - pose proof (knot_le N 0 (s i) HS ltac:(lia)) as Q0. pose proof (knot_le N (S (s i)) N HS ltac:(lia)) as Q1. rewrite knot_0 in Q0 by auto. rewrite knot_S in Q1 by auto. lra.
    - apply Rmult_le_compat_l; auto. apply Rmult_le_pos; [now apply Rmult_le_pos|lra]. }
  set (y0 := at_ y [b; o]) in *. set (c0 := rsum (pw_in l) (fun i => P o i (s i) _)) in *. set (z0 := rsum (pw_in l) (fun i => link l o i _)) in *.
  replace (y0 - z0) with ((y0 - c0) + (c0 - z0)) by ring. eapply Rle_trans; [apply Rabs_triang|]. lra.
Qed.
Print Assumptions C106_continuous.

(** Polynomial layers with stored nodes near the Chebyshev-Lobatto points. *)
Theorem C106_polynomial : forall emin prec n I O X eps A W w x y B mag draw, (1 <= n)%nat -> (0 < prec)%Z -> (emin <= 0)%Z ->
  stored_nodes emin prec n X -> close_nodes n X eps -> amplified_by n X A -> shape w = [O; I; n] ->
  (forall o i p, (o < O)%nat -> (i < I)%nat -> (p < n)%nat -> Rabs (at_ w [o; i; p]) <= W) ->
  shape x = [B; I] -> (forall b i, (b < B)%nat -> (i < I)%nat -> representable emin prec (at_ x [b; i]) /\ -1 <= at_ x [b; i] <= 1) ->
  fl_polynomial_forward (nearest emin prec) n X None w x y ->
  exists z, Function_forward (with_fw (Polynomial n I O 2 mag None draw) w) x = Ok z /\ shape z = [B; O] /\ shape y = [B; O] /\
    forall b o, (b < B)%nat -> (o < O)%nat ->
      Rabs (at_ y [b; o] - at_ z [b; o]) <= INR I * W * (steepness n * (eps * A) + A * growth emin prec (4 * n + I * n)) + underflow emin prec (I * n).
Proof.
  intros emin prec n I O X eps A W w x y B mag draw Hn Hp He HS' HX HA Hw HW Hx Fx F. pose proof HS' as [FX DX].
  destruct (C99_error emin prec n X None w x y B I O Hp He Hn HS' Hx Hw ltac:(intros; now apply Fx) F) as (c & Ec & Sc & Sy & E).
  destruct (function_spec n (mkBasis (Some n) (lagrange_call n X)) None w x B I O Hn Hw Hx) as (c' & Ec' & _ & Vc).
  assert (Id : tmap (fl_apply_periodicity (nearest emin prec) None) x = x) by (destruct x; reflexivity). rewrite Id, Ec' in Ec. assert (Q : c' = c) by (injection Ec; auto). subst c'.
  destruct (function_spec n (lb_basis (get_lagrange_basis n 2)) None w x B I O Hn Hw Hx) as (z & Ez & Sz & Vz).
  exists z. split; [exact Ez|]. do 2 (split; auto). intros b o Hb Ho. specialize (E b o Hb Ho). rewrite Vz by auto. rewrite Vc in E by auto. cbn [apply_periodicity call fl_apply_periodicity] in *.
  pose proof (growth_pos emin prec (4 * n + I * n)) as G0. set (G := growth emin prec (4 * n + I * n)) in *. fold (underflow emin prec (I * n)) in E.
  assert (E1 : rsum I (fun i => rsum n (fun j => amplification n X (at_ x [b; i]) j * Rabs (at_ w [o; i; j]))) <= INR I * (W * A)).
  { rewrite <- rsum_const. apply rsum_le. intros i Hi. destruct (Fx b i Hb Hi) as (_ & Rx).
    assert (W0 : 0 <= W) by (pose proof (HW o i 0%nat Ho Hi ltac:(lia)); pose proof (Rabs_pos (at_ w [o; i; 0%nat])); lra).
    apply Rle_trans with (rsum n (fun j => W * amplification n X (at_ x [b; i]) j)).
    - apply rsum_le. intros j Hj. rewrite Rmult_comm. apply Rmult_le_compat_r; [pose proof (amplification_ge1 n X (at_ x [b; i]) j); lra|auto].
    - rewrite rsum_scal. apply Rmult_le_compat_l; auto. apply HA. apply Rabs_le. lra. }
  assert (E2 : Rabs (rsum I (fun i => rsum n (fun j => lagrange_call n X (at_ x [b; i]) j * at_ w [o; i; j])) - rsum I (fun i => rsum n (fun k => call (lb_basis (get_lagrange_basis n 2)) (at_ x [b; i]) k * at_ w [o; i; k])))
     <= INR I * (W * (steepness n * (eps * A)))).
  { rewrite <- rsum_minus, <- rsum_const. eapply Rle_trans; [apply rsum_abs|]. apply rsum_le. intros i Hi. destruct (Fx b i Hb Hi) as (_ & Rx).
    apply (nodes_error n X eps A W (fun j => at_ w [o; i; j]) (interp n 2 (fun j => at_ w [o; i; j])) (at_ x [b; i])); auto; [now apply interp_interpolates|apply Rabs_le; lra]. }
  apply (Rmult_le_compat_r G) in E1; auto.
  set (y0 := at_ y [b; o]) in *. set (c0 := rsum I (fun i => rsum n (fun j => lagrange_call n X (at_ x [b; i]) j * _))) in *. set (z0 := rsum I (fun i => rsum n (fun k => call _ _ _ * _))) in *.
  replace (y0 - z0) with ((y0 - c0) + (c0 - z0)) by ring. eapply Rle_trans; [apply Rabs_triang|]. lra.
Qed.
Print Assumptions C106_polynomial.

(** A bound that depends on the distances of the nodes only. *)
Definition node_spread (n : nat) (X : tensor R) : R := rsum n (fun j => rprod n (fun m => if Nat.eqb m j then 1 else 3 / Rabs (at_ X [j] - at_ X [m]))).
Theorem C106_amplification : forall n X, distinct n (fun k => at_ X [k]) -> (forall k, (k < n)%nat -> -1 <= at_ X [k] <= 1) -> amplified_by n X (node_spread n X).
Proof.
  intros n X D HX t Ht. apply Rabs_le_inv in Ht. unfold node_spread. apply rsum_le. intros j Hj. unfold amplification.
  assert (Q : forall m, (m <= n)%nat -> 0 <= rprod m (fun m => if Nat.eqb m j then 1 else Rmax 1 (Rabs ((t - at_ X [m]) / (at_ X [j] - at_ X [m]))))
     <= rprod m (fun m => if Nat.eqb m j then 1 else 3 / Rabs (at_ X [j] - at_ X [m]))); [|now apply Q].
  induction m as [|m IH]; intros Hm; cbn [rprod]; [lra|]. destruct IH as (I1 & I2); [lia|].
  assert (F : 0 <= (if Nat.eqb m j then 1 else Rmax 1 (Rabs ((t - at_ X [m]) / (at_ X [j] - at_ X [m])))) <= (if Nat.eqb m j then 1 else 3 / Rabs (at_ X [j] - at_ X [m]))).
  { destruct (Nat.eqb_spec m j) as [|Ne]; [lra|]. pose proof (HX m ltac:(lia)) as Rm. pose proof (HX j Hj) as Rj.
    assert (P : 0 < Rabs (at_ X [j] - at_ X [m])) by (apply Rabs_pos_lt, Rminus_eq_contra, D; auto; lia).
    assert (P2 : Rabs (at_ X [j] - at_ X [m]) <= 2) by (apply Rabs_le; lra). assert (P3 : Rabs (t - at_ X [m]) <= 3) by (apply Rabs_le; lra).
    split; [pose proof (Rmax_l 1 (Rabs ((t - at_ X [m]) / (at_ X [j] - at_ X [m])))); lra|]. apply Rmax_lub.
    - apply (Rmult_le_reg_r (Rabs (at_ X [j] - at_ X [m]))); auto. unfold Rdiv. rewrite Rmult_assoc, Rinv_l by lra. lra.
    - unfold Rdiv. rewrite Rabs_mult, Rabs_inv. apply Rmult_le_compat_r; auto. left. now apply Rinv_0_lt_compat. }
  split; [apply Rmult_le_pos; lra|apply Rmult_le_compat; lra].
Qed.
Print Assumptions C106_amplification.

(** float32, three segments of three nodes (-1, 0, 1, which are the exact Chebyshev-Lobatto points) and weights at most 1: the computed output is within 2^-9
    of the layer in real arithmetic, wherever the input lies in [[-1,1]]. *)
Definition three : tensor R := mkT [3%nat] (fun ix => match ix with [0%nat] => -1 | [1%nat] => 0 | _ => 1 end).
Lemma three_stored : stored_nodes (-149) 24 3 three.
Proof.
  split.
  - intros k Hk. assert (F1 : representable (-149) 24 1) by (apply fmt_1; lia).
    destruct k as [|[|[|k]]]; try lia; cbn; [replace (-1) with (- (1)) by ring; now apply fmt_opp|apply generic_format_0|exact F1].
  - intros [|[|[|k]]] [|[|[|k']]] Hk Hk' Ne; try lia; cbn; lra.
Qed.
Lemma three_close : close_nodes 3 three 0.
Proof.
  intros k Hk. assert (L0 : lobatto 3 0 = -1) by (apply (node_first 3); lia). assert (L2 : lobatto 3 2 = 1) by (apply (node_last 3); lia).
  assert (L1 : lobatto 3 1 = 0) by (unfold lobatto; cbn; replace (1 * PI / (1 + 1)) with (PI / 2) by field; rewrite cos_PI2; ring).
  destruct k as [|[|[|k]]]; try lia; cbn [at_ three]; rewrite ?L0, ?L1, ?L2; (split; [lra|]); replace (_ - _) with 0 by ring; rewrite Rabs_R0; lra.
Qed.
Lemma three_spread : amplified_by 3 three 18.
Proof.
  replace 18 with (node_spread 3 three); [apply C106_amplification|].
  - exact (proj2 three_stored).
  - intros k Hk. now apply three_close.
  - unfold node_spread. cbn. rewrite (Rabs_left (-1 - 0)), (Rabs_left (-1 - 1)), (Rabs_left (0 - 1)), (Rabs_pos_eq (0 - -1)), (Rabs_pos_eq (1 - -1)), (Rabs_pos_eq (1 - 0)) by lra. field; lra.
Qed.
Example C106_case : forall w x y B, let l := with_w (new_piecewise PiecewisePolynomial 3 1 1 3 2 1 None (fun _ _ => 0)) w in
  shape w = [1; 1; 7]%nat -> (forall p, (p < 7)%nat -> Rabs (at_ w [0; 0; p]%nat) <= 1) ->
  shape x = [B; 1%nat] -> (forall b, (b < B)%nat -> representable (-149) 24 (at_ x [b; 0%nat]) /\ -1 <= at_ x [b; 0%nat] <= 1) ->
  fl_piecewise_forward (nearest (-149) 24) l three x y ->
  forall z b, Piecewise_forward l x = Ok z -> (b < B)%nat -> Rabs (at_ y [b; 0%nat] - at_ z [b; 0%nat]) <= / 2 ^ 9.
Proof.
  intros w x y B l Hw HW Hx Fx F z b Hz Hb. assert (H : held l) by (apply with_w_held; [apply new_held; lia|exact Hw]).
  assert (St : steepness 3 = 6) by (unfold steepness; cbn; field).
  destruct (C106_continuous (-149) 24 l three 0 18 1 x y B H eq_refl eq_refl eq_refl ltac:(lia) ltac:(lia)) as (z' & Ez & _ & _ & E); auto.
  - cbn [l with_w new_piecewise pw_n pw_segments]. rewrite St. cbn. lra.
  - exact three_stored.
  - exact three_close.
  - exact three_spread.
  - intros o i p V. cbn [l with_w pw_w] in V |- *. rewrite Hw in V. destruct V as (V1 & V2 & V3 & _). replace o with 0%nat by lia. replace i with 0%nat by lia. now apply HW.
  - intros b' i Hb' Hi. cbn in Hi. replace i with 0%nat by lia. auto.
  - rewrite Hz in Ez. injection Ez as <-. eapply Rle_trans; [apply E; auto; cbn; lia|]. cbn [l with_w new_piecewise pw_n pw_segments pw_in]. rewrite St.
    pose proof (C99_growth (-149) 24 (4 * 3 + 1 * 3)) as G. cbn [Nat.mul Nat.add] in *.
    assert (B1 : bpow radix2 (-149 - 1) <= bpow radix2 (-24)) by (apply bpow_le; lia). pose proof (bpow_ge_0 radix2 (-149 - 1)) as B0.
    assert (B2 : bpow radix2 (-24) = / 16777216) by (cbn; f_equal; lra). change (- (24))%Z with (-24)%Z in *. rewrite B2 in *. set (e := bpow radix2 (-149 - 1)) in *.
    specialize (G ltac:(cbn; lra)). set (g := growth _ _ _) in *.
    assert (Un : underflow (-149) 24 3 <= 3 * (/ 16777216 * 8)).
    { unfold underflow. change (- (24))%Z with (-24)%Z. rewrite B2. fold e. assert (0 <= (1 + / 16777216) ^ 3 <= 8) by (cbn; lra). set (h := (1 + / 16777216) ^ 3) in *. cbn [INR]. nra. }
    set (un := underflow _ _ _) in *. cbn [INR] in *. lra.
Qed.
