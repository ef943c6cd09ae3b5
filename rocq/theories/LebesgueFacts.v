(** * The Chebyshev-Lobatto interpolation operator is bounded by 2(n-1) on [[-1,1]].

    The cardinal polynomials are written as Chebyshev sums; discrete orthogonality of the cosines
    and uniqueness of interpolation identify them.  Facts only, no model definitions. *)
From Coq Require Import Reals ZArith List Lia Lra Psatz.
From Verif Require Import Spec Tensor LagrangePolynomial SumFacts LagrangeFacts LayerProofs.
Local Open Scope R_scope.

(** T_k(-x), by the three-term recursion; [chT k] is the pair (T_k(-x), T_(k+1)(-x)). *)
Fixpoint chT (k : nat) (x : R) : R * R :=
  match k with
  | O => (1, - x)
  | S k => let '(a, b) := chT k x in (b, -2 * x * b - a)
  end.
Definition cht (k : nat) (x : R) : R := fst (chT k x).

Lemma chT_S k x : chT (S k) x = (snd (chT k x), -2 * x * snd (chT k x) - fst (chT k x)).
Proof. simpl. now destruct (chT k x). Qed.

Lemma chT_cos k t : chT k (- cos t) = (cos (INR k * t), cos (INR (S k) * t)).
Proof.
  induction k.
  - simpl. rewrite Rmult_0_l, cos_0, Rmult_1_l. f_equal. ring.
  - rewrite chT_S, IHk. cbn [fst snd]. f_equal.
    replace (INR (S (S k)) * t) with (INR (S k) * t + t) by (rewrite (S_INR (S k)); ring).
    replace (INR k * t) with (INR (S k) * t - t) by (rewrite (S_INR k); ring).
    rewrite cos_plus, cos_minus. ring.
Qed.

Lemma cht_cos k t : cht k (- cos t) = cos (INR k * t).
Proof. unfold cht. now rewrite chT_cos. Qed.

Lemma chT_poly k : poly_lt (S k) (fun x => fst (chT k x)) /\ poly_lt (S (S k)) (fun x => snd (chT k x)).
Proof.
  induction k.
  - simpl. split; [apply poly_lt_const; lia|].
    apply (poly_lt_ext _ (fun x => (-1) * (x ^ 1))); [intros; ring|]. apply poly_lt_scal, poly_lt_pow.
  - destruct IHk as [IH1 IH2]. split.
    + apply (poly_lt_ext _ (fun x => snd (chT k x))); auto. intros. now rewrite chT_S.
    + apply (poly_lt_ext _ (fun x => (-2) * (x * snd (chT k x)) - fst (chT k x))).
      { intros. rewrite chT_S. cbn [snd]. ring. }
      apply poly_lt_minus.
      * apply poly_lt_scal. now apply (poly_lt_mul_x (S (S k))).
      * apply (poly_lt_mono (S k)); [lia|auto].
Qed.

Lemma cht_poly k : poly_lt (S k) (cht k).
Proof. apply chT_poly. Qed.

Lemma cos_of x : -1 <= x <= 1 -> exists t, x = - cos t.
Proof. intros H. exists (acos (- x)). rewrite cos_acos by lra. ring. Qed.

Lemma cht_bound k x : -1 <= x <= 1 -> Rabs (cht k x) <= 1.
Proof.
  intros H. destruct (cos_of x H) as [t ->]. rewrite cht_cos.
  pose proof (COS_bound (INR k * t)). apply Rabs_le. lra.
Qed.

(** Sum of [f 0 .. f N], the end terms halved. *)
Definition trap (N : nat) (f : nat -> R) : R := rsum N (fun k => (f k + f (S k)) / 2).

Lemma trap_ext N f g : (forall k, (k <= N)%nat -> f k = g k) -> trap N f = trap N g.
Proof. intros H. apply rsum_ext. intros k Hk. rewrite !H by lia. reflexivity. Qed.

Lemma trap_plus N f g : trap N (fun k => f k + g k) = trap N f + trap N g.
Proof. unfold trap. rewrite <- rsum_plus. apply rsum_ext. intros. field. Qed.

Lemma trap_scal N a f : trap N (fun k => a * f k) = a * trap N f.
Proof. unfold trap. rewrite <- rsum_scal. apply rsum_ext. intros. field. Qed.

Lemma trap_1 N : trap N (fun _ => 1) = INR N.
Proof. unfold trap. rewrite (rsum_ext N _ (fun _ => 1)) by (intros; field). rewrite rsum_const. ring. Qed.

Lemma trap_bound N f : (forall k, (k <= N)%nat -> Rabs (f k) <= 1) -> Rabs (trap N f) <= INR N.
Proof.
  intros H. unfold trap. eapply Rle_trans; [apply rsum_abs|].
  apply Rle_trans with (rsum N (fun _ => 1)); [|rewrite rsum_const; lra].
  apply rsum_le. intros k Hk.
  assert (A := H k ltac:(lia)). assert (B := H (S k) ltac:(lia)).
  unfold Rdiv. rewrite Rabs_mult, (Rabs_pos_eq (/2)) by lra.
  pose proof (Rabs_triang (f k) (f (S k))). lra.
Qed.

Lemma trap_cos N a : 2 * sin (a / 2) * trap N (fun k => cos (INR k * a)) = sin (INR N * a) * cos (a / 2).
Proof.
  induction N.
  - unfold trap. simpl. rewrite Rmult_0_l, sin_0. ring.
  - unfold trap in *. cbn [rsum]. rewrite Rmult_plus_distr_l, IHN.
    set (u := INR N * a + a / 2).
    replace (INR N * a) with (u - a / 2) by (unfold u; ring).
    replace (INR (S N) * a) with (u + a / 2) by (unfold u; rewrite S_INR; field).
    rewrite cos_plus, cos_minus, sin_plus, sin_minus. field.
Qed.

Lemma sin_nat_PI m : sin (INR m * PI) = 0.
Proof.
  induction m; [simpl; rewrite Rmult_0_l; apply sin_0|].
  rewrite S_INR, Rmult_plus_distr_r, Rmult_1_l, neg_sin. lra.
Qed.

(** Discrete orthogonality in one index. *)
Lemma trap_zero N m : (0 < m)%nat -> (m < 2 * N)%nat -> trap N (fun k => cos (INR k * (INR m * PI / INR N))) = 0.
Proof.
  intros Hm HN. assert (PN : 0 < INR N) by (apply lt_0_INR; lia).
  pose proof (trap_cos N (INR m * PI / INR N)) as T.
  replace (INR N * (INR m * PI / INR N)) with (INR m * PI) in T by (field; lra).
  rewrite sin_nat_PI, Rmult_0_l in T.
  assert (S0 : 0 < sin (INR m * PI / INR N / 2)).
  { pose proof PI_RGT_0. assert (0 < INR m) by (apply lt_0_INR; lia).
    assert (INR m < 2 * INR N) by (apply lt_INR in HN; rewrite mult_INR in HN; simpl in HN; lra).
    apply sin_gt_0.
    - repeat apply Rdiv_lt_0_compat; try lra. now apply Rmult_lt_0_compat.
    - apply (Rmult_lt_reg_r (2 * INR N)); [lra|].
      replace (INR m * PI / INR N / 2 * (2 * INR N)) with (INR m * PI) by (field; lra). nra. }
  assert (Z : trap N (fun k => cos (INR k * (INR m * PI / INR N))) * sin (INR m * PI / INR N / 2) = 0) by lra.
  apply Rmult_integral in Z. destruct Z; [auto|lra].
Qed.

Lemma trap_full N m : (m = 0 \/ m = 2 * N)%nat -> (1 <= N)%nat -> trap N (fun k => cos (INR k * (INR m * PI / INR N))) = INR N.
Proof.
  intros Hm HN. transitivity (trap N (fun _ => 1)); [|apply trap_1]. apply trap_ext. intros k _.
  assert (PN : 0 < INR N) by (apply lt_0_INR; lia).
  destruct Hm as [-> | ->].
  - simpl (INR 0). replace (INR k * (0 * PI / INR N)) with 0 by (field; lra). apply cos_0.
  - rewrite mult_INR. simpl (INR 2). replace (INR k * ((1 + 1) * INR N * PI / INR N)) with (0 + 2 * INR k * PI) by (field; lra).
    now rewrite cos_period, cos_0.
Qed.

(** 1/2 at the two ends, 1 in between. *)
Definition endw (N j : nat) : R := if (Nat.eqb j 0 || Nat.eqb j N)%bool then 1 / 2 else 1.

Definition ang (N j : nat) : R := INR j * PI / INR N.

(** The cardinal polynomial of node [j] as a Chebyshev sum. *)
Definition card (N j : nat) (x : R) : R :=
  2 * endw N j / INR N * trap N (fun k => cos (INR k * ang N j) * cht k x).

Lemma card_poly N j : poly_lt (S N) (card N j).
Proof.
  apply (poly_lt_scal (S N) _ (fun x => trap N (fun k => cos (INR k * ang N j) * cht k x))).
  apply (poly_lt_rsum (S N) N (fun k x => (cos (INR k * ang N j) * cht k x + cos (INR (S k) * ang N j) * cht (S k) x) / 2)).
  intros k Hk.
  apply (poly_lt_ext _ (fun x => /2 * ((cos (INR k * ang N j) * cht k x + cos (INR (S k) * ang N j) * cht (S k) x)))); [intros; field|].
  apply poly_lt_scal, poly_lt_plus; apply poly_lt_scal.
  - apply (poly_lt_mono (S k)); [lia|apply cht_poly].
  - apply (poly_lt_mono (S (S k))); [lia|apply cht_poly].
Qed.

Lemma card_bound N j x : (1 <= N)%nat -> -1 <= x <= 1 -> Rabs (card N j x) <= 2 * endw N j.
Proof.
  intros HN Hx. assert (PN : 0 < INR N) by (apply lt_0_INR; lia).
  assert (E0 : 0 < endw N j) by (unfold endw; destruct orb; lra).
  assert (T : Rabs (trap N (fun k => cos (INR k * ang N j) * cht k x)) <= INR N).
  { apply trap_bound. intros k _. rewrite Rabs_mult.
    assert (Rabs (cos (INR k * ang N j)) <= 1) by (pose proof (COS_bound (INR k * ang N j)); apply Rabs_le; lra).
    pose proof (cht_bound k x Hx). pose proof (Rabs_pos (cos (INR k * ang N j))). pose proof (Rabs_pos (cht k x)). nra. }
  unfold card. rewrite Rabs_mult, (Rabs_pos_eq (2 * endw N j / INR N)).
  - apply Rle_trans with (2 * endw N j / INR N * INR N); [|right; field; lra].
    apply Rmult_le_compat_l; [|exact T]. apply Rlt_le, Rdiv_lt_0_compat; lra.
  - apply Rlt_le, Rdiv_lt_0_compat; lra.
Qed.

Lemma node_cos N i : (1 <= N)%nat -> lobatto (S N) i = - cos (ang N i).
Proof.
  intros HN. unfold lobatto, ang. destruct (Nat.eqb_spec (S N) 1); [lia|]. now replace (S N - 1)%nat with N by lia.
Qed.

Lemma card_node N i j : (1 <= N)%nat -> (i <= N)%nat -> (j <= N)%nat ->
  card N j (lobatto (S N) i) = if Nat.eqb j i then 1 else 0.
Proof.
  intros HN Hi Hj. assert (PN : 0 < INR N) by (apply lt_0_INR; lia).
  rewrite node_cos by auto. unfold card.
  set (lo := Nat.min i j). set (hi := Nat.max i j).
  assert (E : trap N (fun k => cos (INR k * ang N j) * cht k (- cos (ang N i)))
     = (1/2) * (trap N (fun k => cos (INR k * (INR (hi - lo) * PI / INR N))) + trap N (fun k => cos (INR k * (INR (hi + lo) * PI / INR N))))).
  { rewrite <- trap_plus, <- trap_scal. apply trap_ext. intros k _. rewrite cht_cos.
    assert (A : INR (hi - lo) * PI / INR N = ang N hi - ang N lo) by (unfold ang; rewrite minus_INR by lia; field; lra).
    assert (B : INR (hi + lo) * PI / INR N = ang N hi + ang N lo) by (unfold ang; rewrite plus_INR by lia; field; lra).
    rewrite A, B. unfold lo, hi.
    destruct (Nat.le_ge_cases i j) as [C|C].
    - rewrite Nat.max_r, Nat.min_l by auto.
      rewrite (Rmult_minus_distr_l (INR k)), (Rmult_plus_distr_l (INR k)), cos_plus, cos_minus. field.
    - rewrite Nat.max_l, Nat.min_r by auto.
      rewrite (Rmult_minus_distr_l (INR k)), (Rmult_plus_distr_l (INR k)), cos_plus, cos_minus. field. }
  rewrite E. destruct (Nat.eqb_spec j i) as [->|D].
  - unfold lo, hi. rewrite Nat.max_id, Nat.min_id, Nat.sub_diag.
    rewrite (trap_full N 0) by auto. unfold endw.
    destruct (Nat.eqb_spec i 0) as [->|I0]; [|destruct (Nat.eqb_spec i N) as [->|IN]]; cbn [orb].
    + rewrite (trap_full N (0 + 0)) by auto. field. lra.
    + rewrite (trap_full N (N + N)) by lia. field. lra.
    + rewrite (trap_zero N (i + i)) by lia. field. lra.
  - rewrite !trap_zero by (unfold lo, hi; lia). ring.
Qed.

Lemma interp_card N v x : (1 <= N)%nat -> interp (S N) 2 v x = rsum (S N) (fun j => v j * card N j x).
Proof.
  intros HN. apply (interpolates_interp (S N) v (fun x => rsum (S N) (fun j => v j * card N j x))); [lia|]. split.
  - apply (poly_lt_rsum (S N) (S N) (fun j x => v j * card N j x)). intros. apply poly_lt_scal, card_poly.
  - intros k Hk. rewrite (rsum_single (S N) k) by (auto; intros j Hj D; rewrite card_node by lia;
      apply Nat.eqb_neq in D; rewrite D; ring).
    rewrite card_node, Nat.eqb_refl by lia. ring.
Qed.

Lemma endw_sum N : (1 <= N)%nat -> rsum (S N) (fun j => 2 * endw N j) = 2 * INR N.
Proof.
  intros HN. destruct N as [|N]; [lia|]. rewrite rsum_S_l. cbn [rsum].
  rewrite (rsum_ext N _ (fun _ => 2)).
  - rewrite rsum_const. unfold endw. rewrite (Nat.eqb_refl (S N)). cbn [Nat.eqb]. cbn [orb]. rewrite S_INR. lra.
  - intros i Hi. unfold endw. destruct (Nat.eqb_spec (S i) (S N)); [lia|]. cbn [Nat.eqb orb]. ring.
Qed.

(** The interpolant of values bounded by [W] is bounded by [2 (n-1) W] on [[-1,1]]. *)
Lemma interp_bound n v W x : (2 <= n)%nat -> (forall k, (k < n)%nat -> Rabs (v k) <= W) -> -1 <= x <= 1 ->
  Rabs (interp n 2 v x) <= 2 * INR (n - 1) * W.
Proof.
  intros Hn Hv Hx. destruct n as [|N]; [lia|]. replace (S N - 1)%nat with N by lia.
  rewrite interp_card by lia. eapply Rle_trans; [apply rsum_abs|].
  rewrite <- endw_sum by lia. rewrite Rmult_comm, <- rsum_scal. apply rsum_le. intros j Hj.
  rewrite Rabs_mult. pose proof (card_bound N j x ltac:(lia) Hx). specialize (Hv j Hj).
  pose proof (Rabs_pos (v j)). pose proof (Rabs_pos (card N j x)). apply Rmult_le_compat; auto.
Qed.

(** Two nodes: the interpolant is the straight line, a convex combination on [[-1,1]]. *)
Lemma interp_two v x : interp 2 2 v x = (1 - x) / 2 * v 0%nat + (1 + x) / 2 * v 1%nat.
Proof.
  apply (interpolates_interp 2 v (fun x => (1 - x) / 2 * v 0%nat + (1 + x) / 2 * v 1%nat)); [lia|]. split.
  - exists (fun k => if Nat.eqb k 0 then (v 0%nat + v 1%nat) / 2 else (v 1%nat - v 0%nat) / 2). intros y. simpl. field.
  - intros k Hk. unfold lobatto. cbn [Nat.eqb Nat.sub]. simpl (INR 1).
    destruct k as [|[|]]; [| |lia].
    + simpl (INR 0). replace (0 * PI / 1) with 0 by field. rewrite cos_0. field.
    + simpl (INR 1). replace (1 * PI / 1) with PI by field. rewrite cos_PI. field.
Qed.
