(** * Finite sums, products and polynomials: lemmas about [Spec.v]. *)
From Coq Require Import Reals ZArith List Lia Lra Psatz.
From Verif Require Import Spec.
Local Open Scope R_scope.

Lemma rsum_ext n f g : (forall i, (i < n)%nat -> f i = g i) -> rsum n f = rsum n g.
Proof.
  induction n; simpl; intros H; [reflexivity|]. rewrite IHn, H; auto; intros; apply H; lia.
Qed.

Lemma rprod_ext n f g : (forall i, (i < n)%nat -> f i = g i) -> rprod n f = rprod n g.
Proof.
  induction n; simpl; intros H; [reflexivity|]. rewrite IHn, H; auto; intros; apply H; lia.
Qed.

Lemma rsum_0 n : rsum n (fun _ => 0) = 0.
Proof. induction n; simpl; lra. Qed.

Lemma rsum_zero n f : (forall i, (i < n)%nat -> f i = 0) -> rsum n f = 0.
Proof. intros; rewrite <- (rsum_0 n); now apply rsum_ext. Qed.

Lemma rsum_const n c : rsum n (fun _ => c) = INR n * c.
Proof. induction n; simpl rsum; [simpl; lra|]. rewrite IHn, S_INR; lra. Qed.

Lemma rsum_plus n f g : rsum n (fun i => f i + g i) = rsum n f + rsum n g.
Proof. induction n; simpl; lra. Qed.

Lemma rsum_minus n f g : rsum n (fun i => f i - g i) = rsum n f - rsum n g.
Proof. induction n; simpl; lra. Qed.

Lemma rsum_scal n a f : rsum n (fun i => a * f i) = a * rsum n f.
Proof. induction n; simpl; lra. Qed.

Lemma rsum_scal_r n a f : rsum n (fun i => f i * a) = rsum n f * a.
Proof. induction n; simpl; lra. Qed.

Lemma rsum_swap n m (f : nat -> nat -> R) :
  rsum n (fun i => rsum m (fun j => f i j)) = rsum m (fun j => rsum n (fun i => f i j)).
Proof.
  induction n; simpl; [symmetry; apply rsum_0|].
  rewrite IHn, <- rsum_plus. now apply rsum_ext.
Qed.

(** Sum with one non-zero term. *)
Lemma rsum_single n j f : (j < n)%nat ->
  (forall i, (i < n)%nat -> i <> j -> f i = 0) -> rsum n f = f j.
Proof.
  induction n; intros Hj H; [lia|]. simpl.
  destruct (Nat.eq_dec j n) as [->|].
  - rewrite rsum_zero; [lra|]. intros; apply H; lia.
  - rewrite IHn, (H n); try lia; [lra|]. intros; apply H; lia.
Qed.

Lemma rsum_delta n j f : (j < n)%nat ->
  rsum n (fun i => f i * (if Nat.eqb i j then 1 else 0)) = f j.
Proof.
  intros Hj. rewrite (rsum_single n j); auto.
  - rewrite Nat.eqb_refl; lra.
  - intros i _ Hne. apply Nat.eqb_neq in Hne; rewrite Hne; lra.
Qed.

Lemma rsum_le n f g : (forall i, (i < n)%nat -> f i <= g i) -> rsum n f <= rsum n g.
Proof.
  induction n; simpl; intros H; [lra|].
  assert (f n <= g n) by (apply H; lia). assert (rsum n f <= rsum n g) by (apply IHn; intros; apply H; lia). lra.
Qed.

Lemma rsum_nonneg n f : (forall i, (i < n)%nat -> 0 <= f i) -> 0 <= rsum n f.
Proof. intros H. rewrite <- (rsum_0 n). now apply rsum_le. Qed.

Lemma rsum_abs n f : Rabs (rsum n f) <= rsum n (fun i => Rabs (f i)).
Proof.
  induction n; simpl; [rewrite Rabs_R0; lra|].
  eapply Rle_trans; [apply Rabs_triang|]. lra.
Qed.

Lemma rsum_add n m f : rsum (n + m) f = rsum n f + rsum m (fun i => f (n + i)%nat).
Proof.
  induction m; simpl; [rewrite Nat.add_0_r; lra|].
  rewrite Nat.add_succ_r; simpl. rewrite IHm; lra.
Qed.

Lemma rsum_S_l n f : rsum (S n) f = f 0%nat + rsum n (fun i => f (S i)).
Proof. change (S n) with (1 + n)%nat. rewrite rsum_add. simpl. f_equal. lra. Qed.

(** Row-major double sum. *)
Lemma rsum_mul n m f : rsum (n * m) f = rsum n (fun i => rsum m (fun j => f (i * m + j)%nat)).
Proof.
  induction n; simpl; [reflexivity|].
  rewrite Nat.add_comm, rsum_add, IHn. reflexivity.
Qed.

Lemma rprod_1 n : rprod n (fun _ => 1) = 1.
Proof. induction n; simpl; lra. Qed.

Lemma rprod_one n f : (forall i, (i < n)%nat -> f i = 1) -> rprod n f = 1.
Proof. intros; rewrite <- (rprod_1 n); now apply rprod_ext. Qed.

Lemma rprod_zero n f j : (j < n)%nat -> f j = 0 -> rprod n f = 0.
Proof.
  induction n; intros Hj H; [lia|]. simpl.
  destruct (Nat.eq_dec j n) as [->|]; [rewrite H; ring|]. rewrite IHn; try lia; [ring|auto].
Qed.

Lemma rprod_mult n f g : rprod n (fun i => f i * g i) = rprod n f * rprod n g.
Proof. induction n; simpl; [lra|]. rewrite IHn; ring. Qed.

Lemma rprod_add n m f : rprod (n + m) f = rprod n f * rprod m (fun i => f (n + i)%nat).
Proof.
  induction m; simpl; [rewrite Nat.add_0_r; lra|].
  rewrite Nat.add_succ_r; simpl. rewrite IHm; ring.
Qed.

Lemma rprod_S_l n f : rprod (S n) f = f 0%nat * rprod n (fun i => f (S i)).
Proof. change (S n) with (1 + n)%nat. rewrite rprod_add. simpl. f_equal. lra. Qed.

Lemma rprod_neq_0 n f : (forall i, (i < n)%nat -> f i <> 0) -> rprod n f <> 0.
Proof.
  induction n; simpl; intros H; [lra|].
  apply Rmult_integral_contrapositive; split; auto.
Qed.

(** ** Polynomials *)

Lemma poly_lt_ext n f g : (forall x, f x = g x) -> poly_lt n f -> poly_lt n g.
Proof. intros H [c Hc]. exists c. intros x. now rewrite <- H. Qed.

Lemma poly_lt_mono n m f : (n <= m)%nat -> poly_lt n f -> poly_lt m f.
Proof.
  intros Hnm [c Hc]. exists (fun k => if (k <? n)%nat then c k else 0). intros x.
  replace m with (n + (m - n))%nat by lia.
  rewrite rsum_add, Hc, (rsum_zero (m - n)).
  - rewrite Rplus_0_r. apply rsum_ext. intros i Hi.
    now destruct (Nat.ltb_spec i n); [|lia].
  - intros i _. destruct (Nat.ltb_spec (n + i) n); [lia|ring].
Qed.

Lemma poly_lt_plus n f g : poly_lt n f -> poly_lt n g -> poly_lt n (fun x => f x + g x).
Proof.
  intros [c Hc] [d Hd]. exists (fun k => c k + d k). intros x.
  rewrite Hc, Hd, <- rsum_plus. apply rsum_ext; intros; ring.
Qed.

Lemma poly_lt_scal n a f : poly_lt n f -> poly_lt n (fun x => a * f x).
Proof.
  intros [c Hc]. exists (fun k => a * c k). intros x.
  rewrite Hc, <- rsum_scal. apply rsum_ext; intros; ring.
Qed.

Lemma poly_lt_minus n f g : poly_lt n f -> poly_lt n g -> poly_lt n (fun x => f x - g x).
Proof.
  intros Hf Hg. apply (poly_lt_ext n (fun x => f x + (-1) * g x)); [intros; ring|].
  apply poly_lt_plus; auto. now apply poly_lt_scal.
Qed.

Lemma poly_lt_zero n : poly_lt n (fun _ => 0).
Proof. exists (fun _ => 0). intros x. symmetry. apply rsum_zero. intros; ring. Qed.

Lemma poly_lt_pow k : poly_lt (S k) (fun x => x ^ k).
Proof.
  exists (fun i => if Nat.eqb i k then 1 else 0). intros x. symmetry.
  rewrite (rsum_single (S k) k); [rewrite Nat.eqb_refl; ring | lia |].
  intros i _ Hi. apply Nat.eqb_neq in Hi; rewrite Hi; ring.
Qed.

Lemma poly_lt_const n c : (1 <= n)%nat -> poly_lt n (fun _ => c).
Proof.
  intros Hn. apply (poly_lt_mono 1); auto. exists (fun _ => c). intros x. simpl. ring.
Qed.

Lemma poly_lt_mul_x n f : poly_lt n f -> poly_lt (S n) (fun x => x * f x).
Proof.
  intros [c Hc]. exists (fun k => match k with O => 0 | S k => c k end). intros x.
  rewrite rsum_S_l, Hc, <- rsum_scal, Rmult_0_l, Rplus_0_l.
  apply rsum_ext; intros; simpl; ring.
Qed.

(** Multiplication by an affine factor. *)
Lemma poly_lt_mul_affine n a b f : poly_lt n f -> poly_lt (S n) (fun x => f x * (a * x + b)).
Proof.
  intros H. apply (poly_lt_ext _ (fun x => a * (x * f x) + b * f x)); [intros; ring|].
  apply poly_lt_plus; apply poly_lt_scal; [now apply poly_lt_mul_x|].
  apply (poly_lt_mono n); auto.
Qed.

Lemma poly_lt_rsum n m (F : nat -> R -> R) :
  (forall i, (i < m)%nat -> poly_lt n (F i)) -> poly_lt n (fun x => rsum m (fun i => F i x)).
Proof.
  induction m; intros H; [apply poly_lt_zero|].
  simpl. apply poly_lt_plus; [apply IHm; intros; apply H; lia | apply H; lia].
Qed.

(** A product of [m] affine factors is a polynomial of degree <= m. *)
Lemma poly_lt_rprod m (a b : nat -> R) : poly_lt (S m) (fun x => rprod m (fun i => a i * x + b i)).
Proof.
  induction m; simpl; [apply poly_lt_const; lia|]. now apply poly_lt_mul_affine.
Qed.

(** Composition with an affine map. *)
Lemma poly_lt_comp_affine n a b f : poly_lt n f -> poly_lt n (fun x => f (a * x + b)).
Proof.
  intros [c Hc]. apply (poly_lt_ext n (fun x => rsum n (fun k => c k * (a * x + b) ^ k)));
    [intros; now rewrite Hc|].
  apply poly_lt_rsum. intros k Hk. apply poly_lt_scal. apply (poly_lt_mono (S k)); [lia|].
  clear. induction k; simpl; [apply poly_lt_const; lia|].
  apply (poly_lt_ext _ (fun x => (a * x + b) ^ k * (a * x + b))); [intros; ring|].
  now apply poly_lt_mul_affine.
Qed.

Lemma pow_factor a k : exists q, poly_lt k q /\ forall x, x ^ k - a ^ k = (x - a) * q x.
Proof.
  induction k as [|k (q & Hq & E)].
  - exists (fun _ => 0). split; [apply poly_lt_zero|intros; simpl; ring].
  - exists (fun x => x ^ k + a * q x). split.
    + apply poly_lt_plus; [apply poly_lt_pow|]. apply poly_lt_scal. apply (poly_lt_mono k); auto.
    + intros x. simpl. replace (x * x ^ k - a * a ^ k) with ((x - a) * x ^ k + a * (x ^ k - a ^ k)) by ring.
      rewrite E. ring.
Qed.

Lemma poly_factor n f a : poly_lt (S n) f ->
  exists g, poly_lt n g /\ forall x, f x - f a = (x - a) * g x.
Proof.
  intros [c Hc].
  assert (H : forall m, (m <= S n)%nat -> exists g, poly_lt n g /\
     forall x, rsum m (fun k => c k * x ^ k) - rsum m (fun k => c k * a ^ k) = (x - a) * g x).
  { induction m; intros Hm.
    - exists (fun _ => 0). split; [apply poly_lt_zero|intros; simpl; ring].
    - destruct IHm as (g & Hg & E); [lia|].
      destruct (pow_factor a m) as (q & Hq & Eq).
      exists (fun x => g x + c m * q x). split.
      + apply poly_lt_plus; auto. apply poly_lt_scal. apply (poly_lt_mono m); auto; lia.
      + intros x. simpl. specialize (E x). specialize (Eq x).
        replace (rsum m (fun k => c k * x ^ k) + c m * x ^ m - (rsum m (fun k => c k * a ^ k) + c m * a ^ m))
          with ((rsum m (fun k => c k * x ^ k) - rsum m (fun k => c k * a ^ k)) + c m * (x ^ m - a ^ m)) by ring.
        rewrite E, Eq. ring. }
  destruct (H (S n) (Nat.le_refl _)) as (g & Hg & E). exists g. split; auto.
  intros x. now rewrite !Hc.
Qed.

Definition distinct (n : nat) (X : nat -> R) : Prop :=
  forall i j, (i < n)%nat -> (j < n)%nat -> i <> j -> X i <> X j.

(** A polynomial of degree < n with n distinct roots vanishes. *)
Lemma poly_roots n : forall f X, poly_lt n f -> distinct n X ->
  (forall i, (i < n)%nat -> f (X i) = 0) -> forall x, f x = 0.
Proof.
  induction n; intros f X Hf HX Hr x.
  - destruct Hf as [c Hc]. now rewrite Hc.
  - destruct (poly_factor n f (X n) Hf) as (g & Hg & E).
    assert (Hn : f (X n) = 0) by (apply Hr; lia).
    assert (G : forall y, g y = 0).
    { apply (IHn g X); auto.
      - intros i j Hi Hj. apply HX; lia.
      - intros i Hi. specialize (E (X i)). rewrite Hn, (Hr i) in E by lia.
        assert (X i - X n <> 0) by (apply Rminus_eq_contra; apply HX; lia).
        destruct (Rmult_integral (X i - X n) (g (X i))); [lra|contradiction|auto]. }
    specialize (E x). rewrite G, Hn in E. lra.
Qed.

(** Two polynomials of degree < n that agree on n distinct points are equal. *)
Lemma poly_unique n f g X : poly_lt n f -> poly_lt n g -> distinct n X ->
  (forall i, (i < n)%nat -> f (X i) = g (X i)) -> forall x, f x = g x.
Proof.
  intros Hf Hg HX E x.
  assert (H : f x - g x = 0).
  { apply (poly_roots n (fun x => f x - g x) X); auto; [now apply poly_lt_minus|].
    intros i Hi. rewrite E; auto; ring. }
  lra.
Qed.

(** Continuity. *)
Lemma continuity_rsum m (F : nat -> R -> R) : (forall i, (i < m)%nat -> continuity (F i)) ->
  continuity (fun x => rsum m (fun i => F i x)).
Proof.
  induction m; simpl; intros H.
  - intros x. apply continuity_pt_const. intros a b; reflexivity.
  - apply (continuity_plus (fun x => rsum m (fun i => F i x)) (F m)); auto.
Qed.

Lemma continuity_ext f g : (forall x, f x = g x) -> continuity f -> continuity g.
Proof.
  intros E H x. specialize (H x). intros eps Heps. destruct (H eps Heps) as (d & Hd & P).
  exists d. split; auto. intros y Hy. rewrite <- !E. auto.
Qed.

Lemma continuity_pow k : continuity (fun x => x ^ k).
Proof. apply derivable_continuous. apply derivable_pow. Qed.

Lemma poly_lt_continuous n f : poly_lt n f -> continuity f.
Proof.
  intros [c Hc]. apply (continuity_ext (fun x => rsum n (fun k => c k * x ^ k))); [intros; now rewrite Hc|].
  apply continuity_rsum. intros i _.
  apply (continuity_scal (fun x => x ^ i)). apply continuity_pow.
Qed.

Lemma continuity_eps f x : continuity_pt f x <->
  forall eps, 0 < eps -> exists d, 0 < d /\ forall y, Rabs (y - x) < d -> Rabs (f y - f x) < eps.
Proof.
  split.
  - intros H eps Heps. destruct (H eps Heps) as (d & Hd & P). exists d; split; auto.
    intros y Hy. destruct (Req_dec y x) as [->|N].
    + rewrite Rminus_diag_eq, Rabs_R0; auto.
    + apply (P y). split; [|exact Hy]. split; [exact I|]. auto.
  - intros H eps Heps. destruct (H eps Heps) as (d & Hd & P). exists d; split; auto.
    intros y [_ Hy]. apply P, Hy.
Qed.

(** A sum of continuous functions of separate coordinates is continuous in the vector. *)
Lemma continuous_vec_sum n (F : nat -> R -> R) : (forall i, (i < n)%nat -> continuity (F i)) ->
  continuous_vec n (fun x => rsum n (fun i => F i (x i))).
Proof.
  intros H. induction n as [|n IH]; intros x eps Heps.
  - exists 1. split; [lra|]. intros. simpl. rewrite Rminus_diag_eq, Rabs_R0; auto.
  - destruct (IH (fun i Hi => H i (Nat.lt_lt_succ_r _ _ Hi)) x (eps/2)) as (d1 & Hd1 & P1); [lra|].
    destruct (proj1 (continuity_eps (F n) (x n)) (H n (Nat.lt_succ_diag_r n) (x n)) (eps/2)) as (d2 & Hd2 & P2); [lra|].
    exists (Rmin d1 d2). split; [now apply Rmin_pos|]. intros y Hy. simpl.
    assert (A : Rabs (rsum n (fun i => F i (y i)) - rsum n (fun i => F i (x i))) < eps/2).
    { apply P1. intros i Hi. eapply Rlt_le_trans; [apply Hy; lia|apply Rmin_l]. }
    assert (B : Rabs (F n (y n) - F n (x n)) < eps/2).
    { apply P2. eapply Rlt_le_trans; [apply Hy; lia|apply Rmin_r]. }
    replace (_ - _) with ((rsum n (fun i => F i (y i)) - rsum n (fun i => F i (x i))) + (F n (y n) - F n (x n))) by ring.
    eapply Rle_lt_trans; [apply Rabs_triang|]. lra.
Qed.
