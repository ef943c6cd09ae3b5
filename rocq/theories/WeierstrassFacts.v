(** * Approximation of continuous functions by polynomials and by trigonometric sums. *)
From Coq Require Import Reals List Lia Lra Psatz.
From Verif Require Import Spec SumFacts Prop_Approx.
Local Open Scope R_scope.

(** ** Continuity on an interval *)
Definition continuous_on (a b : R) (f : R -> R) : Prop := forall x eps, a <= x <= b -> 0 < eps ->
  exists d, 0 < d /\ forall y, a <= y <= b -> Rabs (y - x) < d -> Rabs (f y - f x) < eps.
Definition uniform_on (a b : R) (f : R -> R) : Prop := forall eps, 0 < eps ->
  exists d, 0 < d /\ forall x y, a <= x <= b -> a <= y <= b -> Rabs (x - y) < d -> Rabs (f x - f y) < eps.

Definition clampI (a b x : R) : R := Rmax a (Rmin b x).
Lemma clampI_in a b x : a <= b -> a <= clampI a b x <= b.
Proof. unfold clampI, Rmax, Rmin. repeat destruct Rle_dec; lra. Qed.
Lemma clampI_id a b x : a <= x <= b -> clampI a b x = x.
Proof. unfold clampI, Rmax, Rmin. repeat destruct Rle_dec; lra. Qed.
Lemma clampI_lip a b x y : a <= b -> Rabs (clampI a b x - clampI a b y) <= Rabs (x - y).
Proof. unfold clampI, Rmax, Rmin, Rabs. repeat destruct Rle_dec; repeat destruct Rcase_abs; lra. Qed.

Lemma heine f : continuous_on (-1) 1 f -> uniform_on (-1) 1 f.
Proof.
  intros C eps He.
  destruct (uniform_all 1 (fun _ x => f (clampI (-1) 1 x)) eps) as (d & Hd & U); auto.
  - intros i x _ Hx. intros e He'. destruct (C x e Hx He') as (d & Hd & P). exists d. split; [exact Hd|]. intros y (_ & Hy).
    unfold dist, R_met, R_dist in *. cbn in *. unfold R_dist in *. rewrite (clampI_id _ _ x) by exact Hx. apply P; [apply clampI_in; lra|].
    rewrite <- (clampI_id (-1) 1 x) at 1 by exact Hx. eapply Rle_lt_trans; [apply clampI_lip; lra|exact Hy].
  - exists d. split; [exact Hd|]. intros x y Hx Hy H. specialize (U 0%nat x y ltac:(lia) Hx Hy H). cbv beta in U. now rewrite !clampI_id in U by assumption.
Qed.
Lemma uniform_on_affine a b c m f : 0 < m -> uniform_on a b f -> uniform_on ((a - c) / m) ((b - c) / m) (fun x => f (m * x + c)).
Proof.
  intros Hm U eps He. destruct (U eps He) as (d & Hd & P). exists (d / m). split; [now apply Rdiv_lt_0_compat|].
  assert (T : forall x, (a - c) / m <= x <= (b - c) / m -> a <= m * x + c <= b).
  { intros x (H1 & H2). apply (Rmult_le_compat_l m) in H1, H2; try lra.
    replace (m * ((a - c) / m)) with (a - c) in H1 by (field; lra). replace (m * ((b - c) / m)) with (b - c) in H2 by (field; lra). lra. }
  intros x y Hx Hy H. apply P; auto. replace (m * x + c - (m * y + c)) with (m * (x - y)) by ring. rewrite Rabs_mult, (Rabs_pos_eq m) by lra.
  apply (Rmult_lt_compat_l m) in H; auto. replace (m * (d / m)) with d in H by (field; lra). exact H.
Qed.

(** ** Bernstein's polynomials, as expectations of a binomial variable *)
Fixpoint expect (x : R) (n : nat) (g : nat -> R) : R :=
  match n with O => g O | S n => (1 - x) * expect x n g + x * expect x n (fun k => g (S k)) end.
Lemma expect_ext x n : forall g h, (forall k, (k <= n)%nat -> g k = h k) -> expect x n g = expect x n h.
Proof.
  induction n as [|n IH]; intros g h E; cbn; [apply E; lia|]. rewrite (IH g h), (IH (fun k => g (S k)) (fun k => h (S k))); auto; intros; apply E; lia.
Qed.
Lemma expect_lin x n : forall a g b h, expect x n (fun k => a * g k + b * h k) = a * expect x n g + b * expect x n h.
Proof. induction n as [|n IH]; intros; cbn; [ring|]. rewrite (IH a g b h), (IH a (fun k => g (S k)) b (fun k => h (S k))). ring. Qed.
Lemma expect_const x n : forall c, expect x n (fun _ => c) = c.
Proof. induction n as [|n IH]; intros; cbn; [ring|]. rewrite !IH. ring. Qed.
Lemma expect_mono x n : 0 <= x <= 1 -> forall g h, (forall k, (k <= n)%nat -> g k <= h k) -> expect x n g <= expect x n h.
Proof.
  intros Hx. induction n as [|n IH]; intros g h E; cbn; [apply E; lia|].
  pose proof (IH g h ltac:(intros; apply E; lia)). pose proof (IH (fun k => g (S k)) (fun k => h (S k)) ltac:(intros; apply E; lia)). nra.
Qed.
Lemma expect_mean x n : expect x n INR = INR n * x.
Proof.
  induction n as [|n IH]; [cbn; ring|]. cbn [expect]. rewrite IH.
  rewrite (expect_ext x n (fun k => INR (S k)) (fun k => 1 * INR k + 1 * 1)) by (intros; rewrite S_INR; ring).
  rewrite (expect_lin x n 1 INR 1 (fun _ => 1)), expect_const, IH, S_INR. ring.
Qed.
Lemma expect_square x n : expect x n (fun k => INR k ^ 2) = INR n * x * (1 - x) + (INR n * x) ^ 2.
Proof.
  induction n as [|n IH]; [cbn; ring|]. cbn [expect]. rewrite IH.
  rewrite (expect_ext x n (fun k => INR (S k) ^ 2) (fun k => 1 * INR k ^ 2 + 1 * (2 * INR k + 1 * 1))) by (intros; rewrite S_INR; ring).
  rewrite (expect_lin x n 1 (fun k => INR k ^ 2) 1 (fun k => 2 * INR k + 1 * 1)), (expect_lin x n 2 INR 1 (fun _ => 1)), expect_const, expect_mean, IH, S_INR. ring.
Qed.
Lemma expect_variance x n : (1 <= n)%nat -> expect x n (fun k => (INR k / INR n - x) ^ 2) = x * (1 - x) / INR n.
Proof.
  intros Hn. assert (P : 0 < INR n) by (apply lt_0_INR; lia).
  rewrite (expect_ext x n _ (fun k => / INR n ^ 2 * INR k ^ 2 + 1 * (- (2 * x / INR n) * INR k + 1 * x ^ 2))) by (intros; field; lra).
  rewrite (expect_lin x n _ (fun k => INR k ^ 2) 1 (fun k => - (2 * x / INR n) * INR k + 1 * x ^ 2)), (expect_lin x n _ INR 1 (fun _ => x ^ 2)), expect_const, expect_mean, expect_square.
  field. lra.
Qed.
Lemma expect_poly n : forall g, poly_lt (S n) (fun x => expect x n g).
Proof.
  induction n as [|n IH]; intros g; cbn [expect]; [apply poly_lt_const; lia|].
  apply (poly_lt_ext _ (fun x => expect x n g * (-1 * x + 1) + expect x n (fun k => g (S k)) * (1 * x + 0))); [intros; ring|].
  apply poly_lt_plus; apply poly_lt_mul_affine; auto.
Qed.

Lemma INR_above r : exists n, r < INR n.
Proof.
  destruct (archimed r) as (A & _). exists (Z.to_nat (up r)). destruct (Z_le_gt_dec 0 (up r)) as [H|H].
  - rewrite INR_IZR_INZ, Z2Nat.id by lia. lra.
  - pose proof (pos_INR (Z.to_nat (up r))). assert (IZR (up r) <= 0) by (apply IZR_le; lia). lra.
Qed.
(** A uniformly continuous function grows at most linearly. *)
Lemma chain a b f d eps : (forall x y, a <= x <= b -> a <= y <= b -> Rabs (x - y) < d -> Rabs (f x - f y) < eps) ->
  forall N s t, a <= s <= b -> a <= t <= b -> Rabs (s - t) < INR (S N) * d -> Rabs (f s - f t) <= INR (S N) * eps.
Proof.
  intros U. induction N as [|N IH]; intros s t Hs Ht H.
  - cbn in *. rewrite Rmult_1_l in *. left. now apply U.
  - rewrite (S_INR (S N)) in *. set (m := INR (S N)) in *. assert (P : 0 < m) by (unfold m; apply lt_0_INR; lia).
    set (u := s + (t - s) / (m + 1)).
    assert (E1 : s - u = (s - t) * / (m + 1)) by (unfold u; field; lra). assert (E2 : u - t = (s - t) * (m / (m + 1))) by (unfold u; field; lra).
    assert (I0 : 0 < / (m + 1)) by (apply Rinv_0_lt_compat; lra).
    assert (Q : / (m + 1) * (m + 1) = 1) by (field; lra). assert (Q1 : / (m + 1) <= 1) by nra.
    assert (Hu : a <= u <= b) by (replace u with (s * (1 - / (m + 1)) + t * / (m + 1)) by (unfold u; field; lra); nra).
    assert (A1 : Rabs (s - u) < d).
    { rewrite E1, Rabs_mult, (Rabs_pos_eq (/ (m + 1))) by lra. apply (Rmult_lt_compat_r (/ (m + 1))) in H; auto. replace ((m + 1) * d * / (m + 1)) with d in H by (field; lra). exact H. }
    assert (A2 : Rabs (u - t) < m * d).
    { rewrite E2, Rabs_mult, (Rabs_pos_eq (m / (m + 1))) by (unfold Rdiv; nra).
      apply (Rmult_lt_compat_r (m / (m + 1))) in H; [|unfold Rdiv; nra]. replace ((m + 1) * d * (m / (m + 1))) with (m * d) in H by (field; lra). exact H. }
    pose proof (U s u Hs Hu A1). pose proof (IH u t Hu Ht A2). replace (f s - f t) with ((f s - f u) + (f u - f t)) by ring.
    eapply Rle_trans; [apply Rabs_triang|]. lra.
Qed.
Lemma quadratic_growth a b f d eps : 0 < d -> 0 < eps -> (forall x y, a <= x <= b -> a <= y <= b -> Rabs (x - y) < d -> Rabs (f x - f y) < eps) ->
  forall s t, a <= s <= b -> a <= t <= b -> Rabs (f s - f t) <= eps + 2 * eps / d ^ 2 * (s - t) ^ 2.
Proof.
  intros Hd He U s t Hs Ht. assert (Pd : 0 < d ^ 2) by nra. assert (Z : 0 <= 2 * eps / d ^ 2 * (s - t) ^ 2).
  { apply Rmult_le_pos; [left; apply Rdiv_lt_0_compat; lra|apply pow2_ge_0]. }
  destruct (Rlt_or_le (Rabs (s - t)) d) as [L|L]; [specialize (U s t Hs Ht L); lra|].
  set (r := Rabs (s - t) / d). assert (R1 : 1 <= r) by (apply (Rmult_le_reg_r d); auto; unfold r; replace (Rabs (s - t) / d * d) with (Rabs (s - t)) by (field; lra); lra).
  assert (exists N, r < INR (S N) <= r + 1) as (N & N1 & N2).
  { destruct (archimed r) as (A1 & A2). assert (Z0 : (0 < up r)%Z) by (apply lt_IZR; lra).
    exists (Z.to_nat (up r) - 1)%nat. replace (S (Z.to_nat (up r) - 1)) with (Z.to_nat (up r)) by lia. rewrite INR_IZR_INZ, Z2Nat.id by lia. lra. }
  assert (B : Rabs (s - t) < INR (S N) * d).
  { apply (Rmult_lt_compat_r d) in N1; auto. unfold r in N1. replace (Rabs (s - t) / d * d) with (Rabs (s - t)) in N1 by (field; lra). exact N1. }
  pose proof (chain a b f d eps U N s t Hs Ht B) as C.
  assert (Sq : (s - t) ^ 2 / d ^ 2 = r ^ 2) by (unfold r; rewrite <- (pow2_abs (s - t)); field; lra).
  replace (2 * eps / d ^ 2 * (s - t) ^ 2) with (2 * eps * r ^ 2) by (rewrite <- Sq; field; lra).
  assert (INR (S N) * eps <= (r + 1) * eps) by nra. assert (r + 1 <= 2 * r ^ 2) by nra. assert ((r + 1) * eps <= 2 * r ^ 2 * eps) by (apply Rmult_le_compat_r; lra). lra.
Qed.

Lemma weierstrass01 f : uniform_on 0 1 f -> forall eps, 0 < eps ->
  exists n0, forall n, (n0 <= n)%nat -> exists p, poly_lt n p /\ forall x, 0 <= x <= 1 -> Rabs (p x - f x) < eps.
Proof.
  intros U eps He. destruct (U (eps / 4) ltac:(lra)) as (d & Hd & Ud). assert (Pd : 0 < d ^ 2) by nra.
  destruct (INR_above (/ d ^ 2)) as (N & HN). exists (S (S N)). intros n Hn.
  exists (fun x => expect x (S N) (fun k => f (INR k / INR (S N)))). split; [apply (poly_lt_mono (S (S N))); auto; apply expect_poly|].
  intros x Hx. assert (PN : 0 < INR (S N)) by (apply lt_0_INR; lia).
  set (c := 2 * (eps / 4) / d ^ 2).
  assert (Node : forall k, (k <= S N)%nat -> 0 <= INR k / INR (S N) <= 1).
  { intros k Hk. apply le_INR in Hk. pose proof (pos_INR k). split; [apply Rmult_le_pos; [lra|left; now apply Rinv_0_lt_compat]|].
    apply (Rmult_le_reg_r (INR (S N))); auto. replace (INR k / INR (S N) * INR (S N)) with (INR k) by (field; lra). lra. }
  assert (G : forall k, (k <= S N)%nat -> Rabs (f (INR k / INR (S N)) - f x) <= eps / 4 + c * (INR k / INR (S N) - x) ^ 2).
  { intros k Hk. apply (quadratic_growth 0 1 f d (eps / 4)); auto. lra. }
  assert (V : expect x (S N) (fun k => 1 * (eps / 4) + c * (INR k / INR (S N) - x) ^ 2) < eps).
  { rewrite (expect_lin x (S N) 1 (fun _ => eps / 4) c (fun k => (INR k / INR (S N) - x) ^ 2)), expect_const, expect_variance by lia.
    assert (X : 0 <= x * (1 - x) <= 1 / 4) by (clear - Hx; pose proof (pow2_ge_0 (x - 1/2)); split; nra).
    assert (Q : c * (x * (1 - x) / INR (S N)) <= eps / 8).
    { replace (c * (x * (1 - x) / INR (S N))) with (eps / 2 * (x * (1 - x)) * (/ d ^ 2 / INR (S N))) by (unfold c; field; lra).
      assert (W : 0 < / d ^ 2 / INR (S N) <= 1).
      { split; [apply Rdiv_lt_0_compat; auto; now apply Rinv_0_lt_compat|]. apply (Rmult_le_reg_r (INR (S N))); auto.
        replace (/ d ^ 2 / INR (S N) * INR (S N)) with (/ d ^ 2) by (field; lra). rewrite S_INR. lra. }
      assert (0 <= eps / 2 * (x * (1 - x)) <= eps / 8) by (clear - He X; nra). clear - W H. nra. }
    lra. }
  assert (Lo : expect x (S N) (fun k => 1 * f (INR k / INR (S N)) + (-1) * f x) = expect x (S N) (fun k => f (INR k / INR (S N))) - f x).
  { rewrite (expect_lin x (S N) 1 (fun k => f (INR k / INR (S N))) (-1) (fun _ => f x)), expect_const. ring. }
  apply Rabs_def1.
  - rewrite <- Lo. eapply Rle_lt_trans; [apply expect_mono; [exact Hx|]|exact V]. intros k Hk. cbv beta. pose proof (G k Hk). pose proof (Rle_abs (f (INR k / INR (S N)) - f x)). lra.
  - rewrite <- Lo. apply Ropp_lt_cancel. rewrite Ropp_involutive. eapply Rle_lt_trans; [|exact V].
    replace (- expect x (S N) (fun k => 1 * f (INR k / INR (S N)) + -1 * f x)) with (expect x (S N) (fun k => (-1) * (1 * f (INR k / INR (S N)) + -1 * f x) + 0 * 0)).
    2: { rewrite (expect_lin x (S N) (-1) (fun k => 1 * f (INR k / INR (S N)) + -1 * f x) 0 (fun _ => 0)). ring. }
    apply expect_mono; [exact Hx|]. intros k Hk. cbv beta. pose proof (G k Hk). pose proof (Rle_abs (- (f (INR k / INR (S N)) - f x))) as A. rewrite Rabs_Ropp in A. lra.
Qed.
Lemma weierstrass f : continuous_on (-1) 1 f -> forall eps, 0 < eps ->
  exists n0, forall n, (n0 <= n)%nat -> exists p, poly_lt n p /\ forall x, -1 <= x <= 1 -> Rabs (p x - f x) < eps.
Proof.
  intros C eps He. apply heine in C. apply (uniform_on_affine (-1) 1 (-1) 2) in C; [|lra].
  replace ((-1 - -1) / 2) with 0 in C by field. replace ((1 - -1) / 2) with 1 in C by field.
  destruct (weierstrass01 _ C eps He) as (n0 & H). exists n0. intros n Hn. destruct (H n Hn) as (p & Pp & Ap).
  exists (fun x => p (1/2 * x + 1/2)). split; [now apply poly_lt_comp_affine|]. intros x Hx. specialize (Ap (1/2 * x + 1/2) ltac:(lra)).
  replace (2 * (1/2 * x + 1/2) + -1) with x in Ap by field. exact Ap.
Qed.
Lemma continuous_on_scale r f : 0 < r -> continuous_on (- r) r f -> continuous_on (-1) 1 (fun x => f (r * x)).
Proof.
  intros Hr C x eps Hx He. destruct (C (r * x) eps ltac:(nra) He) as (d & Hd & P). exists (d / r). split; [now apply Rdiv_lt_0_compat|].
  intros y Hy H. apply P; [nra|]. replace (r * y - r * x) with (r * (y - x)) by ring. rewrite Rabs_mult, (Rabs_pos_eq r) by lra.
  apply (Rmult_lt_compat_l r) in H; auto. replace (r * (d / r)) with d in H by (field; lra). exact H.
Qed.
Lemma weierstrass_on r f : 0 < r -> continuous_on (- r) r f -> forall eps, 0 < eps ->
  exists n0, forall n, (n0 <= n)%nat -> exists p, poly_lt n p /\ forall x, - r <= x <= r -> Rabs (p x - f x) < eps.
Proof.
  intros Hr C eps He. destruct (weierstrass _ (continuous_on_scale r f Hr C) eps He) as (n0 & H). exists n0. intros n Hn.
  destruct (H n Hn) as (p & Pp & Ap). exists (fun x => p (/ r * x + 0)). split; [now apply poly_lt_comp_affine|]. intros x Hx.
  assert (0 < / r) by now apply Rinv_0_lt_compat. assert (/ r * r = 1) by (field; lra).
  specialize (Ap (/ r * x + 0) ltac:(nra)). replace (r * (/ r * x + 0)) with x in Ap by (field; lra). exact Ap.
Qed.

(** ** Trigonometric sums with [n] harmonics, the constant included *)
Definition trig_lt (n : nat) (g : R -> R) : Prop :=
  exists a b : nat -> R, forall t, g t = rsum n (fun i => a i * cos (INR i * t) + b i * sin (INR i * t)).
Lemma trig_ext n f g : (forall t, f t = g t) -> trig_lt n f -> trig_lt n g.
Proof. intros H (a & b & E). exists a, b. intros t. now rewrite <- H. Qed.
Lemma trig_lin n c f e g : trig_lt n f -> trig_lt n g -> trig_lt n (fun t => c * f t + e * g t).
Proof.
  intros (a & b & E) (a' & b' & E'). exists (fun i => c * a i + e * a' i), (fun i => c * b i + e * b' i). intros t.
  rewrite E, E', <- !rsum_scal, <- rsum_plus. apply rsum_ext. intros. ring.
Qed.
Lemma trig_zero n : trig_lt n (fun _ => 0).
Proof. exists (fun _ => 0), (fun _ => 0). intros t. symmetry. apply rsum_zero. intros; ring. Qed.
Lemma trig_cos n i : (i < n)%nat -> trig_lt n (fun t => cos (INR i * t)).
Proof.
  intros Hi. exists (fun j => if Nat.eqb j i then 1 else 0), (fun _ => 0). intros t. rewrite (rsum_single n i); auto; [rewrite Nat.eqb_refl; ring|].
  intros j Hj Nj. destruct (Nat.eqb_spec j i); [congruence|ring].
Qed.
Lemma trig_sin n i : (i < n)%nat -> trig_lt n (fun t => sin (INR i * t)).
Proof.
  intros Hi. exists (fun _ => 0), (fun j => if Nat.eqb j i then 1 else 0). intros t. rewrite (rsum_single n i); auto; [rewrite Nat.eqb_refl; ring|].
  intros j Hj Nj. destruct (Nat.eqb_spec j i); [congruence|ring].
Qed.
Lemma trig_const n c : (1 <= n)%nat -> trig_lt n (fun _ => c).
Proof.
  intros Hn. apply (trig_ext n (fun t => c * cos (INR 0 * t) + 0 * 0)); [intros; cbn; rewrite Rmult_0_l, cos_0; ring|].
  apply trig_lin; [now apply trig_cos|apply trig_zero].
Qed.
Lemma trig_rsum n m (F : nat -> R -> R) : (forall i, (i < m)%nat -> trig_lt n (F i)) -> trig_lt n (fun t => rsum m (fun i => F i t)).
Proof.
  induction m as [|m IH]; intros H; cbn [rsum]; [apply trig_zero|].
  apply (trig_ext n (fun t => 1 * rsum m (fun i => F i t) + 1 * F m t)); [intros; ring|]. apply trig_lin; [apply IH; intros; apply H; lia|apply H; lia].
Qed.
Lemma trig_mono n m g : (n <= m)%nat -> trig_lt n g -> trig_lt m g.
Proof.
  intros H (a & b & E). apply (trig_ext m (fun t => rsum n (fun i => a i * cos (INR i * t) + b i * sin (INR i * t)))); [intros; now rewrite E|].
  apply (trig_rsum m n (fun i t => a i * cos (INR i * t) + b i * sin (INR i * t))). intros i Hi. apply trig_lin; [apply trig_cos|apply trig_sin]; lia.
Qed.
Lemma trig_mul_cos n g : trig_lt n g -> trig_lt (S n) (fun t => cos t * g t).
Proof.
  intros (a & b & E). apply (trig_ext (S n) (fun t => rsum n (fun i => a i * (cos (INR i * t) * cos t) + b i * (sin (INR i * t) * cos t)))).
  { intros t. rewrite E, <- rsum_scal. apply rsum_ext. intros. ring. }
  apply (trig_rsum (S n) n (fun i t => a i * (cos (INR i * t) * cos t) + b i * (sin (INR i * t) * cos t))). intros i Hi.
  destruct i as [|i].
  - apply (trig_ext _ (fun t => a 0%nat * cos (INR 1 * t) + 0 * 0)); [intros t; cbn; rewrite (Rmult_0_l t), cos_0, sin_0; rewrite (Rmult_1_l t); ring|].
    apply trig_lin; [apply trig_cos; lia|apply trig_zero].
  - apply trig_lin.
    + apply (trig_ext _ (fun t => 1/2 * cos (INR (S (S i)) * t) + 1/2 * cos (INR i * t))); [|apply trig_lin; apply trig_cos; lia].
      intros t. rewrite !S_INR. set (v := (INR i + 1) * t). replace ((INR i + 1 + 1) * t) with (v + t) by (unfold v; ring). replace (INR i * t) with (v - t) by (unfold v; ring).
      rewrite cos_plus, cos_minus. field.
    + apply (trig_ext _ (fun t => 1/2 * sin (INR (S (S i)) * t) + 1/2 * sin (INR i * t))); [|apply trig_lin; apply trig_sin; lia].
      intros t. rewrite !S_INR. set (v := (INR i + 1) * t). replace ((INR i + 1 + 1) * t) with (v + t) by (unfold v; ring). replace (INR i * t) with (v - t) by (unfold v; ring).
      rewrite sin_plus, sin_minus. field.
Qed.
Lemma trig_mul_sin n g : trig_lt n g -> trig_lt (S n) (fun t => sin t * g t).
Proof.
  intros (a & b & E). apply (trig_ext (S n) (fun t => rsum n (fun i => a i * (cos (INR i * t) * sin t) + b i * (sin (INR i * t) * sin t)))).
  { intros t. rewrite E, <- rsum_scal. apply rsum_ext. intros. ring. }
  apply (trig_rsum (S n) n (fun i t => a i * (cos (INR i * t) * sin t) + b i * (sin (INR i * t) * sin t))). intros i Hi.
  destruct i as [|i].
  - apply (trig_ext _ (fun t => a 0%nat * sin (INR 1 * t) + 0 * 0)); [intros t; cbn; rewrite (Rmult_0_l t), cos_0, sin_0; rewrite (Rmult_1_l t); ring|].
    apply trig_lin; [apply trig_sin; lia|apply trig_zero].
  - apply trig_lin.
    + apply (trig_ext _ (fun t => 1/2 * sin (INR (S (S i)) * t) + (-1/2) * sin (INR i * t))); [|apply trig_lin; apply trig_sin; lia].
      intros t. rewrite !S_INR. set (v := (INR i + 1) * t). replace ((INR i + 1 + 1) * t) with (v + t) by (unfold v; ring). replace (INR i * t) with (v - t) by (unfold v; ring).
      rewrite sin_plus, sin_minus. field.
    + apply (trig_ext _ (fun t => 1/2 * cos (INR i * t) + (-1/2) * cos (INR (S (S i)) * t))); [|apply trig_lin; apply trig_cos; lia].
      intros t. rewrite !S_INR. set (v := (INR i + 1) * t). replace ((INR i + 1 + 1) * t) with (v + t) by (unfold v; ring). replace (INR i * t) with (v - t) by (unfold v; ring).
      rewrite cos_plus, cos_minus. field.
Qed.
Lemma trig_pow_cos k : trig_lt (S k) (fun t => cos t ^ k).
Proof. induction k as [|k IH]; cbn [pow]; [apply trig_const; lia|now apply trig_mul_cos]. Qed.
Lemma trig_poly_cos n p : poly_lt n p -> trig_lt n (fun t => p (cos t)).
Proof.
  intros (c & E). apply (trig_ext n (fun t => rsum n (fun k => c k * cos t ^ k))); [intros; now rewrite E|].
  apply (trig_rsum n n (fun k t => c k * cos t ^ k)). intros k Hk. apply (trig_ext n (fun t => c k * cos t ^ k + 0 * 0)); [intros; ring|].
  apply trig_lin; [apply (trig_mono (S k)); [lia|apply trig_pow_cos]|apply trig_zero].
Qed.

(** ** Continuous functions of the cosine *)
Lemma sin_between p q : 0 <= p -> p <= q <= PI - p -> sin p <= sin q.
Proof.
  intros Hp Hq. pose proof PI_RGT_0. destruct (Rle_or_lt q (PI / 2)) as [L|L].
  - apply sin_incr_1; lra.
  - rewrite <- (sin_PI_x q). apply sin_incr_1; lra.
Qed.
Lemma cos_gap a b : 0 <= a -> a <= b <= PI -> 2 * sin ((b - a) / 2) ^ 2 <= cos a - cos b.
Proof.
  intros Ha Hb. rewrite form2. replace ((a - b) / 2) with (- ((b - a) / 2)) by field. rewrite sin_neg.
  pose proof (sin_between ((b - a) / 2) ((a + b) / 2) ltac:(lra) ltac:(lra)). assert (0 <= sin ((b - a) / 2)) by (apply sin_ge_0; lra). nra.
Qed.
Lemma acos_close d : 0 < d -> exists e, 0 < e /\ forall u v, -1 <= u <= 1 -> -1 <= v <= 1 -> Rabs (u - v) < e -> Rabs (acos u - acos v) < d.
Proof.
  intros Hd. pose proof PI_RGT_0 as P. set (m := Rmin d PI). assert (Hm : 0 < m <= PI /\ m <= d) by (unfold m, Rmin; destruct Rle_dec; lra).
  assert (Sm : 0 < sin (m / 2)) by (apply sin_gt_0; lra). exists (2 * sin (m / 2) ^ 2). split; [nra|].
  assert (W : forall u v, -1 <= u <= 1 -> -1 <= v <= 1 -> acos u <= acos v -> Rabs (u - v) < 2 * sin (m / 2) ^ 2 -> acos v - acos u < d).
  { intros u v Hu Hv L H. destruct (Rlt_or_le (acos v - acos u) d) as [Q|Q]; auto. exfalso.
    pose proof (acos_bound u) as Bu. pose proof (acos_bound v) as Bv. pose proof (cos_gap (acos u) (acos v) ltac:(lra) ltac:(lra)) as G.
    rewrite !cos_acos in G by auto. pose proof (sin_between (m / 2) ((acos v - acos u) / 2) ltac:(lra) ltac:(lra)).
    pose proof (Rle_abs (u - v)). assert (sin (m / 2) ^ 2 <= sin ((acos v - acos u) / 2) ^ 2) by nra. lra. }
  intros u v Hu Hv H. destruct (Rle_or_lt (acos u) (acos v)) as [L|L].
  - rewrite Rabs_minus_sym, Rabs_pos_eq by lra. now apply W.
  - rewrite Rabs_pos_eq by lra. apply W; auto; [lra|]. now rewrite Rabs_minus_sym.
Qed.
Lemma even_trig e : (forall t, 0 <= t <= PI -> continuity_pt e t) -> forall eps, 0 < eps ->
  exists n0 p, trig_lt n0 (fun t => p (cos t)) /\ forall t, 0 <= t <= PI -> Rabs (p (cos t) - e t) < eps.
Proof.
  intros C eps He. assert (K : continuous_on (-1) 1 (fun u => e (acos u))).
  { intros u eta Hu Heta. destruct (C (acos u) (acos_bound u) eta Heta) as (d & Hd & Q). destruct (acos_close d Hd) as (d' & Hd' & Q').
    exists d'. split; [exact Hd'|]. intros v Hv H. destruct (Req_dec (acos v) (acos u)) as [->|N]; [rewrite Rminus_eq_0, Rabs_R0; exact Heta|].
    apply Q. split; [split; [exact Logic.I|congruence]|]. cbn. unfold R_dist. now apply Q'. }
  destruct (weierstrass _ K eps He) as (n0 & H). destruct (H n0 (le_n _)) as (p & Pp & Ap). exists n0, p. split; [now apply trig_poly_cos|].
  intros t Ht. specialize (Ap (cos t) (COS_bound t)). now rewrite acos_cos in Ap by exact Ht.
Qed.

(** ** Periodic continuous functions *)
Lemma clamp_continuous a b : a <= b -> continuity (clampI a b).
Proof.
  intros Hab x eps He. exists eps. split; [exact He|]. intros y (_ & Hy). cbn in *. unfold R_dist in *. eapply Rle_lt_trans; [now apply clampI_lip|exact Hy].
Qed.
Lemma extend_continuous a b f : a <= b -> continuous_on a b f -> continuity (fun x => f (clampI a b x)).
Proof.
  intros Hab C x eps He. destruct (C (clampI a b x) eps (clampI_in a b x Hab) He) as (d & Hd & P). exists d. split; [exact Hd|].
  intros y (_ & Hy). cbn in *. unfold R_dist in *. apply P; [now apply clampI_in|]. eapply Rle_lt_trans; [now apply clampI_lip|exact Hy].
Qed.
Lemma odd_trig o : continuity o -> o 0 = 0 -> o PI = 0 -> forall eps, 0 < eps ->
  exists n0 p, trig_lt n0 (fun t => sin t * p (cos t)) /\ forall t, 0 <= t <= PI -> Rabs (sin t * p (cos t) - o t) < eps.
Proof.
  intros C O0 OP eps He. pose proof PI_RGT_0 as P0. set (dl := eps / 2). assert (Hdl : 0 < dl) by (unfold dl; lra).
  set (s := fun t => o t - clampI (- dl) dl (o t)).
  assert (Cs : continuity s).
  { intros t. apply continuity_pt_minus; [apply C|]. apply (continuity_pt_comp o (clampI (- dl) dl)); [apply C|apply clamp_continuous; lra]. }
  assert (Sz : forall t, Rabs (o t) < dl -> s t = 0).
  { intros t Ht. unfold s. apply Rabs_def2 in Ht. rewrite clampI_id by lra. ring. }
  assert (So : forall t, Rabs (s t - o t) <= dl).
  { intros t. unfold s. replace (o t - clampI (- dl) dl (o t) - o t) with (- clampI (- dl) dl (o t)) by ring. rewrite Rabs_Ropp.
    pose proof (clampI_in (- dl) dl (o t) ltac:(lra)). apply Rabs_le. lra. }
  set (q := fun t => s t / sin t).
  assert (Edge : forall a, o a = 0 -> continuity_pt q a).
  { intros a Ha eta Heta. destruct (C a dl Hdl) as (d & Hd & Q). exists d. split; [exact Hd|].
    assert (Z : forall t, Rabs (t - a) < d -> q t = 0).
    { intros t Ht. unfold q. rewrite Sz; [unfold Rdiv; ring|]. destruct (Req_dec a t) as [<-|N]; [rewrite Ha, Rabs_R0; exact Hdl|].
      specialize (Q t). cbn in Q. unfold R_dist in Q. rewrite Ha, Rminus_0_r in Q. apply Q. split; [split; [exact Logic.I|exact N]|exact Ht]. }
    intros t (_ & Ht). cbn in *. unfold R_dist in *. rewrite (Z t Ht), (Z a), Rminus_0_r, Rabs_R0; auto. rewrite Rminus_eq_0, Rabs_R0. exact Hd. }
  assert (Cq : forall t, 0 <= t <= PI -> continuity_pt q t).
  { intros t Ht. destruct (Req_dec t 0) as [->|N0]; [now apply Edge|]. destruct (Req_dec t PI) as [->|N1]; [now apply Edge|].
    apply continuity_pt_div; [apply Cs|apply continuity_sin|]. apply Rgt_not_eq, sin_gt_0; lra. }
  destruct (even_trig q Cq dl Hdl) as (n0 & p & Tp & Ap). exists (S n0), p. split; [now apply trig_mul_sin|].
  intros t Ht. assert (Eq : sin t * q t = s t).
  { unfold q. destruct (Req_dec (sin t) 0) as [Z|Z]; [|field; exact Z]. rewrite Z.
    assert (D : t = 0 \/ t = PI) by (destruct (Req_dec t 0); auto; destruct (Req_dec t PI); auto; exfalso; pose proof (sin_gt_0 t ltac:(lra) ltac:(lra)); lra).
    rewrite Sz; [unfold Rdiv; ring|]. destruct D as [->| ->]; rewrite ?O0, ?OP, Rabs_R0; exact Hdl. }
  replace (sin t * p (cos t) - o t) with (sin t * (p (cos t) - q t) + (s t - o t)) by (rewrite <- Eq; ring).
  eapply Rle_lt_trans; [apply Rabs_triang|]. rewrite Rabs_mult. specialize (Ap t Ht). specialize (So t).
  assert (Rabs (sin t) <= 1) by (apply Rabs_le; apply SIN_bound). pose proof (Rabs_pos (p (cos t) - q t)). pose proof (Rabs_pos (sin t)).
  assert (Rabs (sin t) * Rabs (p (cos t) - q t) < dl) by nra. unfold dl in *. lra.
Qed.
Lemma trig_approximation f : continuous_on (- PI) PI f -> f (- PI) = f PI -> forall eps, 0 < eps ->
  exists n0 g, trig_lt n0 g /\ forall t, - PI <= t <= PI -> Rabs (g t - f t) < eps.
Proof.
  intros C Per eps He. pose proof PI_RGT_0 as P0. set (F := fun x => f (clampI (- PI) PI x)).
  assert (CF : continuity F) by (apply extend_continuous; auto; lra).
  assert (CN : continuity (fun t => F (- t))).
  { intros t. apply (continuity_pt_comp Ropp F); [apply continuity_pt_opp, derivable_continuous_pt, derivable_pt_id|apply CF]. }
  assert (EF : forall t, - PI <= t <= PI -> F t = f t) by (intros t Ht; unfold F; now rewrite clampI_id).
  destruct (even_trig (fun t => 1/2 * (F t + F (- t)))) with (eps := eps / 2) as (n1 & p1 & T1 & A1); [|lra|].
  { intros t _. apply (continuity_pt_scal (fun t => F t + F (- t))). apply continuity_pt_plus; [apply CF|apply CN]. }
  destruct (odd_trig (fun t => 1/2 * (F t - F (- t)))) with (eps := eps / 2) as (n2 & p2 & T2 & A2); [| | |lra|].
  { intros t. apply (continuity_pt_scal (fun t => F t - F (- t))). apply continuity_pt_minus; [apply CF|apply CN]. }
  { rewrite Ropp_0. ring. }
  { rewrite !EF, Per by lra. ring. }
  exists (Nat.max n1 n2), (fun t => 1 * p1 (cos t) + 1 * (sin t * p2 (cos t))). split.
  { apply trig_lin; [apply (trig_mono n1)|apply (trig_mono n2)]; auto; lia. }
  intros t Ht. rewrite <- EF by exact Ht.
  assert (H : forall u, 0 <= u <= PI -> Rabs (1 * p1 (cos u) + 1 * (sin u * p2 (cos u)) - F u) < eps /\ Rabs (1 * p1 (cos u) - 1 * (sin u * p2 (cos u)) - F (- u)) < eps).
  { intros u Hu. specialize (A1 u Hu). specialize (A2 u Hu). cbv beta in *. apply Rabs_def2 in A1, A2. split; apply Rabs_def1; lra. }
  destruct (Rle_or_lt 0 t) as [L|L]; [apply H; lra|]. destruct (H (- t) ltac:(lra)) as (_ & H2). rewrite cos_neg, sin_neg, Ropp_involutive in H2.
  replace (1 * p1 (cos t) + 1 * (sin t * p2 (cos t)) - F t) with (1 * p1 (cos t) - 1 * (- sin t * p2 (cos t)) - F t) by ring. exact H2.
Qed.
