(** * Properties of nodes, basis functions, coordinates and periodic folding
    (C01, C02, C03, C13, C55). *)
From Coq Require Import Reals ZArith List Lia Lra.
From Verif Require Import Spec Tensor Utils LagrangePolynomial Basis PolynomialLayers Observe
  SumFacts TensorFacts LagrangeFacts LayerFacts SegmentFacts LayerProofs.
Import ListNotations.
Local Open Scope R_scope.

(** ** C01 *)
Theorem C01_nodes_ordered_symmetric : forall n, (1 <= n)%nat ->
  shape (chebyshevLobatto n) = [n] /\
  (forall i, (i < n)%nat -> -1 <= at_ (chebyshevLobatto n) [i] <= 1) /\
  (forall i j, (i < j)%nat -> (j < n)%nat -> at_ (chebyshevLobatto n) [i] < at_ (chebyshevLobatto n) [j]) /\
  (forall i, (i < n)%nat -> at_ (chebyshevLobatto n) [n - 1 - i]%nat = - at_ (chebyshevLobatto n) [i]) /\
  (n = 1%nat -> at_ (chebyshevLobatto n) [0%nat] = 0) /\
  ((2 <= n)%nat -> at_ (chebyshevLobatto n) [0%nat] = -1 /\ at_ (chebyshevLobatto n) [n - 1]%nat = 1).
Proof.
  intros n Hn. repeat split.
  - apply cheb_shape.
  - now apply (cheb_range n i).
  - now apply (cheb_range n i).
  - intros i j. apply (cheb_increasing n i j).
  - intros i. apply (cheb_antisym n i).
  - intros ->. reflexivity.
  - now apply cheb_first.
  - now apply cheb_last.
Qed.
Print Assumptions C01_nodes_ordered_symmetric.

(** The points are the Chebyshev-Lobatto points. *)
Theorem C01_nodes_are_lobatto : forall n i, (i < n)%nat -> at_ (chebyshevLobatto n) [i] = lobatto n i.
Proof. intros n i H. symmetry. apply lobatto_cheb. lia. Qed.
Print Assumptions C01_nodes_are_lobatto.

Example C01_case : at_ (chebyshevLobatto 3) [1%nat] = 0.
Proof.
  change (cheb 3 1 = 0). pose proof (cheb_antisym 3 1 ltac:(lia)) as H. simpl in H. lra.
Qed.

(** ** C02 *)
Theorem C02_cardinal_and_partition_of_unity : forall n len, (1 <= n)%nat -> 0 < len ->
  let L := get_lagrange_basis n len in
  shape (lb_X L) = [n] /\
  (forall i j, (i < n)%nat -> (j < n)%nat ->
     call (lb_basis L) (at_ (lb_X L) [i]) j = if Nat.eqb i j then 1 else 0) /\
  (forall x, rsum n (fun j => call (lb_basis L) x j) = 1) /\
  (forall j, (j < n)%nat -> poly_lt n (fun x => call (lb_basis L) x j)).
Proof.
  intros n len Hn Hlen L. repeat split.
  - unfold L, get_lagrange_basis. destruct (Nat.eqb_spec n 1) as [->|]; [reflexivity|]. apply cheb_shape.
  - intros i j. apply (lag_delta n len i j). lra.
  - intros x. apply (lag_partition n len x); auto. lra.
  - intros j. apply (lag_poly n len j).
Qed.
Print Assumptions C02_cardinal_and_partition_of_unity.

(** The nodes span [[-length/2, length/2]]. *)
Theorem C02_nodes_scaled : forall n len i, (i < n)%nat ->
  at_ (lb_X (get_lagrange_basis n len)) [i] = len / 2 * lobatto n i.
Proof.
  intros n len i H. rewrite lobatto_cheb by lia. apply (node_eq n len i).
Qed.
Print Assumptions C02_nodes_scaled.

Example C02_case : call (lb_basis (get_lagrange_basis 2 4)) 1 1 = 3/4.
Proof.
  change (lag 2 4 1 1 = 3/4). rewrite lag_eq by lia. simpl. rewrite !node_eq.
  pose proof (cheb_first 2 ltac:(lia)) as A. pose proof (cheb_last 2 ltac:(lia)) as B. simpl in B.
  rewrite A, B. field.
Qed.

(** ** C03 *)
Theorem C03_polynomial_layer_exact :
  forall n I O len mag draw (w x : tensor R) B (f : nat -> nat -> R -> R),
  (1 <= n)%nat -> 0 < len ->
  shape w = [O; I; n] -> shape x = [B; I] ->
  (forall o i, poly_lt n (f o i)) ->
  (forall o i k, (o < O)%nat -> (i < I)%nat -> (k < n)%nat ->
     at_ w [o; i; k] = f o i (len / 2 * lobatto n k)) ->
  exists y, Function_forward (with_fw (Polynomial n I O len mag None draw) w) x = Ok y /\
    shape y = [B; O] /\
    forall b o, (b < B)%nat -> (o < O)%nat -> at_ y [b; o] = rsum I (fun i => f o i (at_ x [b; i])).
Proof.
  intros n I O len mag draw w x B f Hn Hlen Hw Hx Hf Hv.
  destruct (function_spec n (lb_basis (get_lagrange_basis n len)) None w x B I O Hn Hw Hx) as (y & E & Hs & Hy).
  exists y. split; [exact E|]. split; [exact Hs|]. intros b o Hb Ho. rewrite Hy by auto.
  apply rsum_ext. intros i Hi. cbn [apply_periodicity].
  rewrite <- (interp_exact n len (f o i)) by (auto; lra).
  apply rsum_ext. intros k Hk. unfold lag. f_equal.
  rewrite node_eq, <- lobatto_cheb by auto. now apply Hv.
Qed.
Print Assumptions C03_polynomial_layer_exact.

(** The freshly built layer has a weight tensor of the shape assumed above. *)
Example C03_case_shape : forall n I O len mag per draw, (1 <= n)%nat ->
  shape (f_w (Polynomial n I O len mag per draw)) = [O; I; n].
Proof.
  intros n I O len mag per draw Hn. unfold Polynomial, BasisFlat_num_basis. cbn.
  unfold get_lagrange_basis. destruct (Nat.eqb_spec n 1) as [->|]; [reflexivity|].
  destruct n; [lia|reflexivity].
Qed.
Example C03_case_poly : poly_lt 3 (fun x => 2 * x ^ 2 - 1).
Proof.
  exists (fun k => match k with O => -1 | 2%nat => 2 | _ => 0 end). intros x. simpl. ring.
Qed.

(** ** C13 *)
Theorem C13_make_periodic_triangle_wave : forall p, 0 < p ->
  (forall x, - (p / 2) <= make_periodic x p <= p / 2) /\
  (forall x, - (p / 2) <= x <= p / 2 -> make_periodic x p = x) /\
  (forall x k, make_periodic (x + 2 * p * IZR k) p = make_periodic x p) /\
  (forall x, make_periodic (p - x) p = make_periodic x p) /\
  (forall x y, Rabs (make_periodic x p - make_periodic y p) <= Rabs (x - y)).
Proof.
  intros p Hp. split; [intros; now apply make_periodic_range|].
  split; [intros; now apply make_periodic_id|].
  split; [intros; now apply make_periodic_period|].
  split; [intros; now apply make_periodic_mirror|].
  intros; now apply make_periodic_lipschitz.
Qed.
Print Assumptions C13_make_periodic_triangle_wave.

Example C13_case : make_periodic (3/2) 2 = 1/2.
Proof.
  replace (3/2) with (2 - 1/2) by lra. rewrite make_periodic_mirror by lra.
  apply make_periodic_id; lra.
Qed.

(** ** C55 *)
Theorem C55_local_global_inverse : forall l s, held l -> pw_length l <> 0 -> (s < pw_segments l)%nat ->
  (forall t, x_local l (x_global l t (Z.of_nat s)) (Z.of_nat s) = t) /\
  (forall x, x_global l (x_local l x (Z.of_nat s)) (Z.of_nat s) = x) /\
  x_global l (- (pw_length l / 2)) (Z.of_nat s) = knot (pw_segments l) s /\
  x_global l (pw_length l / 2) (Z.of_nat s) = knot (pw_segments l) (S s).
Proof.
  intros l s H HL Hs. apply held_wf in H. destruct H as (_ & HS & _). assert (P := INR_pos _ HS).
  split; [intros; now apply x_local_global|]. split; [intros; now apply x_global_local|].
  rewrite !x_global_eq by auto. rewrite knot_succ by auto. split; field; lra.
Qed.
Print Assumptions C55_local_global_inverse.

Example C55_case : held (new_piecewise PiecewisePolynomial 3 2 1 4 2 1 None (fun _ _ => 0)).
Proof. apply new_held; lia. Qed.
