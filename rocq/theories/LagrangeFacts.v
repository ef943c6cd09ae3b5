(** * Chebyshev-Lobatto nodes and the Lagrange basis. *)
From Coq Require Import Reals ZArith List Lia Lra.
From Verif Require Import Spec Tensor LagrangePolynomial SumFacts.
Import ListNotations.
Local Open Scope R_scope.

Definition cheb (n i : nat) : R := at_ (chebyshevLobatto n) [i].

Lemma cheb_shape n : shape (chebyshevLobatto n) = [n].
Proof. unfold chebyshevLobatto. now destruct (Nat.eqb_spec n 1) as [->|]. Qed.

Lemma cheb_eq n i : n <> 1%nat -> cheb n i = - cos (PI * INR i / (INR n - 1)).
Proof. intros H. unfold cheb, chebyshevLobatto. apply Nat.eqb_neq in H. now rewrite H. Qed.

Lemma cheb_1 i : cheb 1 i = 0.
Proof. reflexivity. Qed.

Lemma INR_n1 n : (2 <= n)%nat -> 0 < INR n - 1.
Proof. intros H. apply le_INR in H. simpl in H. lra. Qed.

Lemma cheb_angle n i : (2 <= n)%nat -> (i < n)%nat -> 0 <= PI * INR i / (INR n - 1) <= PI.
Proof.
  intros Hn Hi. assert (P := PI_RGT_0). assert (D := INR_n1 n Hn).
  assert (0 <= INR i) by apply pos_INR.
  assert (INR i <= INR n - 1).
  { assert (H1 : (i <= n - 1)%nat) by lia. apply le_INR in H1. rewrite minus_INR in H1 by lia. simpl in H1. lra. }
  split.
  - apply Rmult_le_pos; [nra|]. left. now apply Rinv_0_lt_compat.
  - apply Rmult_le_reg_r with (INR n - 1); auto. unfold Rdiv.
    rewrite Rmult_assoc, Rinv_l by lra. nra.
Qed.

Lemma cheb_increasing n i j : (i < j)%nat -> (j < n)%nat -> cheb n i < cheb n j.
Proof.
  intros Hij Hj. rewrite !cheb_eq by lia.
  apply Ropp_lt_contravar. assert (Hn : (2 <= n)%nat) by lia.
  assert (A := cheb_angle n i Hn ltac:(lia)). assert (B := cheb_angle n j Hn Hj).
  apply cos_decreasing_1; try tauto.
  apply Rmult_lt_compat_r; [apply Rinv_0_lt_compat, INR_n1; auto|].
  apply Rmult_lt_compat_l; [apply PI_RGT_0|]. now apply lt_INR.
Qed.

Lemma cheb_first n : (2 <= n)%nat -> cheb n 0 = -1.
Proof.
  intros H. rewrite cheb_eq by lia. simpl. unfold Rdiv. rewrite Rmult_0_r, Rmult_0_l, cos_0. lra.
Qed.

Lemma cheb_last n : (2 <= n)%nat -> cheb n (n - 1) = 1.
Proof.
  intros H. rewrite cheb_eq by lia. rewrite minus_INR by lia. simpl (INR 1).
  assert (D := INR_n1 n H).
  replace (PI * (INR n - 1) / (INR n - 1)) with PI by (field; lra). rewrite cos_PI. lra.
Qed.

Lemma cheb_antisym n i : (i < n)%nat -> cheb n (n - 1 - i) = - cheb n i.
Proof.
  intros H. destruct (Nat.eq_dec n 1) as [->|Hn]; [rewrite !cheb_1; lra|].
  rewrite !cheb_eq by lia.
  replace (n - 1 - i)%nat with (n - (1 + i))%nat by lia.
  rewrite minus_INR by lia. rewrite plus_INR. simpl (INR 1).
  assert (D := INR_n1 n ltac:(lia)).
  replace (PI * (INR n - (1 + INR i)) / (INR n - 1)) with (PI - PI * INR i / (INR n - 1)) by (field; lra).
  rewrite <- Ropp_involutive at 1. f_equal. 
  rewrite Ropp_involutive. rewrite cos_minus, cos_PI, sin_PI. lra.
Qed.

Lemma cheb_range n i : (i < n)%nat -> -1 <= cheb n i <= 1.
Proof.
  intros H. destruct (Nat.eq_dec n 1) as [->|Hn]; [rewrite cheb_1; lra|].
  rewrite cheb_eq by lia. pose proof (COS_bound (PI * INR i / (INR n - 1))). lra.
Qed.

(** ** Basis *)

(** Nodes of [get_lagrange_basis n length]. *)
Definition node (n : nat) (len : R) (i : nat) : R := at_ (lb_X (get_lagrange_basis n len)) [i].
Definition lag (n : nat) (len : R) (j : nat) (x : R) : R :=
  call (lb_basis (get_lagrange_basis n len)) x j.

Lemma node_eq n len i : node n len i = len / 2 * cheb n i.
Proof.
  unfold node, get_lagrange_basis. destruct (Nat.eqb_spec n 1) as [->|].
  - simpl. rewrite cheb_1. lra.
  - reflexivity.
Qed.

Lemma node_2 n i : node n 2 i = cheb n i.
Proof. rewrite node_eq. lra. Qed.

Lemma node_distinct n len : len <> 0 -> distinct n (node n len).
Proof.
  intros Hl i j Hi Hj Hne. rewrite !node_eq. intros E.
  assert (E' : cheb n i = cheb n j) by (apply Rmult_eq_reg_l with (len/2); auto; lra).
  destruct (Nat.lt_total i j) as [H|[H|H]]; [|lia|].
  - pose proof (cheb_increasing n i j H Hj). lra.
  - pose proof (cheb_increasing n j i H Hi). lra.
Qed.

Lemma lag_eq n len j x : n <> 1%nat ->
  lag n len j x = rprod n (fun m => if negb (Nat.eqb m j)
                                    then (x - node n len m) / (node n len j - node n len m) else 1).
Proof.
  intros Hn. unfold lag, node, get_lagrange_basis. apply Nat.eqb_neq in Hn. rewrite Hn. simpl.
  unfold lagrange_call. apply rprod_ext. intros m _. simpl. now destruct (Nat.eqb m j).
Qed.

Lemma lag_1 len j x : lag 1 len j x = 1.
Proof. reflexivity. Qed.

Lemma lag_delta n len i j : len <> 0 -> (i < n)%nat -> (j < n)%nat ->
  lag n len j (node n len i) = if Nat.eqb i j then 1 else 0.
Proof.
  intros Hl Hi Hj. destruct (Nat.eq_dec n 1) as [->|Hn].
  - replace i with 0%nat by lia. replace j with 0%nat by lia. reflexivity.
  - rewrite lag_eq by auto. destruct (Nat.eqb_spec i j) as [->|Hij].
    + apply rprod_one. intros m Hm. destruct (Nat.eqb_spec m j) as [->|Hmj]; [reflexivity|].
      simpl. unfold Rdiv. apply Rinv_r. apply Rminus_eq_contra, node_distinct; auto.
    + apply (rprod_zero n _ i Hi). apply Nat.eqb_neq in Hij. rewrite Hij. simpl.
      unfold Rdiv. rewrite Rminus_diag_eq by reflexivity. ring.
Qed.

Lemma lag_poly n len j : (j < n)%nat -> poly_lt n (lag n len j).
Proof.
  intros Hj. destruct (Nat.eq_dec n 1) as [->|Hn].
  - apply (poly_lt_const 1 1). lia.
  - apply (poly_lt_ext n (fun x => rprod j (fun m => / (node n len j - node n len m) * x + - node n len m / (node n len j - node n len m))
       * rprod (n - 1 - j) (fun m => / (node n len j - node n len (j + 1 + m)) * x + - node n len (j + 1 + m) / (node n len j - node n len (j + 1 + m))))).
    + intros x. rewrite lag_eq by auto.
      assert (E : forall g, rprod n g = rprod j g * (g j * rprod (n - 1 - j) (fun m => g (j + 1 + m)%nat))).
      { intros g. replace n with (j + (1 + (n - 1 - j)))%nat at 1 by lia.
        rewrite !rprod_add. simpl (rprod 1 _). rewrite Nat.add_0_r, Rmult_1_l. f_equal. f_equal.
        apply rprod_ext. intros m _. f_equal. lia. }
      rewrite E. rewrite Nat.eqb_refl. simpl negb. cbv iota.
      rewrite Rmult_1_l. f_equal; apply rprod_ext; intros m Hm.
      * destruct (Nat.eqb_spec m j); [lia|]. simpl. unfold Rdiv; ring.
      * destruct (Nat.eqb_spec (j + 1 + m) j); [lia|]. simpl negb. cbv iota. unfold Rdiv; ring.
    + assert (K : forall k (a b : nat -> R) N f, poly_lt N f -> poly_lt (N + k) (fun x => f x * rprod k (fun i => a i * x + b i))).
      { clear. induction k; intros a b N f Hf.
        - rewrite Nat.add_0_r. apply (poly_lt_ext _ f); auto. intros; simpl; ring.
        - rewrite Nat.add_succ_r. simpl.
          apply (poly_lt_ext _ (fun x => (f x * rprod k (fun i => a i * x + b i)) * (a k * x + b k))); [intros; ring|].
          apply poly_lt_mul_affine. now apply IHk. }
      replace n with (S j + (n - 1 - j))%nat at 1 by lia.
      apply K. apply poly_lt_rprod.
Qed.

(** Interpolant of values [v] at the nodes. *)
Definition interp (n : nat) (len : R) (v : nat -> R) (x : R) : R :=
  rsum n (fun j => lag n len j x * v j).

Lemma interp_poly n len v : poly_lt n (interp n len v).
Proof.
  apply (poly_lt_rsum n n (fun j x => lag n len j x * v j)). intros j Hj.
  apply (poly_lt_ext n (fun x => v j * lag n len j x)); [intros; ring|].
  now apply poly_lt_scal, lag_poly.
Qed.

Lemma interp_node n len v i : len <> 0 -> (i < n)%nat -> interp n len v (node n len i) = v i.
Proof.
  intros Hl Hi. unfold interp.
  rewrite (rsum_single n i); auto.
  - rewrite lag_delta, Nat.eqb_refl by auto. ring.
  - intros j Hj Hne. rewrite lag_delta by auto.
    destruct (Nat.eqb_spec i j); [congruence|ring].
Qed.

Lemma interp_ext n len v v' x : (forall j, (j < n)%nat -> v j = v' j) -> interp n len v x = interp n len v' x.
Proof. intros H. apply rsum_ext. intros j Hj. now rewrite H. Qed.

(** Exactness. *)
Lemma interp_exact n len f : len <> 0 -> poly_lt n f ->
  forall x, interp n len (fun j => f (node n len j)) x = f x.
Proof.
  intros Hl Hf. apply (poly_unique n _ _ (node n len)); auto.
  - apply interp_poly.
  - now apply node_distinct.
  - intros i Hi. now rewrite interp_node.
Qed.

Lemma lag_partition n len x : len <> 0 -> (1 <= n)%nat -> rsum n (fun j => lag n len j x) = 1.
Proof.
  intros Hl Hn. rewrite <- (interp_exact n len (fun _ => 1) Hl (poly_lt_const n 1 Hn) x).
  apply rsum_ext. intros; ring.
Qed.

Lemma interp_const n len c x : len <> 0 -> (1 <= n)%nat -> interp n len (fun _ => c) x = c.
Proof. intros Hl Hn. apply (interp_exact n len (fun _ => c) Hl). now apply poly_lt_const. Qed.
